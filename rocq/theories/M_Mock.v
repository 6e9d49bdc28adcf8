(* Model of MockProver (halo2_proofs/src/dev.rs) with the parts of dev/util.rs it uses.

   Simplifications.  A failure carries the row it was found at instead of the FailureLocation
   (the region and offset, dev/failure.rs) and no names or printed values; so the columns of a
   region (dev.rs:45) are not kept.  A region's enabled selectors, a HashMap, are a list in order
   of first use; a Selector is its index.  Arithmetic on i32 does not overflow. *)
Set Warnings "-notation-overridden,-ambiguous-paths".
From mathcomp Require Import all_ssreflect all_algebra.
From Verif Require Import Util M_Env M_Assigned M_Circuit M_Selectors M_Copy M_Value M_Plonk M_Assign.
Import GRing.Theory.
Set Implicit Arguments.
Unset Strict Implicit.
Local Open Scope ring_scope.

(* a % n on i32: the sign is that of a *)
Definition i32_rem (a : int) (n : nat) : int := if 0 <= a then (a %% n)%Z else - ((- a) %% n)%Z.

Section Mock.
Variable F : fieldType.
Local Notation assigned := (assigned F).

(* dev.rs:75-84 enum CellValue *)
Inductive cellv := CUnassigned | CAssigned of F | CPoison of nat.
(* dev.rs:86-91 enum Value *)
Inductive mval := Real of F | Poison.

(* derived PartialEq *)
Definition cellv_code (c : cellv) : option (F + nat) :=
  match c with CUnassigned => None | CAssigned x => Some (inl x) | CPoison i => Some (inr i) end.
Definition cellv_decode (c : option (F + nat)) : cellv :=
  match c with None => CUnassigned | Some (inl x) => CAssigned x | Some (inr i) => CPoison i end.
Lemma cellv_codeK : cancel cellv_code cellv_decode. Proof. by case. Qed.
Definition cellv_eqMixin := CanEqMixin cellv_codeK.
Canonical cellv_eqType := EqType cellv cellv_eqMixin.
Definition mval_code (v : mval) : option F := if v is Real x then Some x else None.
Definition mval_decode (v : option F) : mval := if v is Some x then Real x else Poison.
Lemma mval_codeK : cancel mval_code mval_decode. Proof. by case. Qed.
Definition mval_eqMixin := CanEqMixin mval_codeK.
Canonical mval_eqType := EqType mval mval_eqMixin.

(* dev.rs:93-102 From<CellValue> for Value *)
Definition mv_of (c : cellv) : mval :=
  match c with CUnassigned => Real 0 | CAssigned v => Real v | CPoison _ => Poison end.
(* dev.rs:104-157 Neg, Add, Mul, Mul<F> *)
Definition mv_neg (a : mval) : mval := if a is Real x then Real (- x) else Poison.
Definition mv_add (a b : mval) : mval :=
  match a, b with Real x, Real y => Real (x + y) | _, _ => Poison end.
Definition mv_mul (a b : mval) : mval :=
  match a, b with
  | Real x, Real y => Real (x * y)
  | Real x, Poison | Poison, Real x => if x == 0 then Real 0 else Poison
  | Poison, Poison => Poison
  end.
Definition mv_scale (a : mval) (f : F) : mval :=
  match a with Real x => Real (x * f) | Poison => if f == 0 then Real 0 else Poison end.

(* dev.rs:41-56 struct Region *)
Record mregion := MRegion {
  mr_rows : option (nat * nat);
  mr_enabled : seq (nat * seq nat);
  mr_cells : seq (column * nat) }.
(* dev.rs:58-73 update_extent, and region.cells.push *)
Definition touch (c : column) (row : nat) (r : mregion) : mregion :=
  let: (start, end_) := odflt (row, row) (mr_rows r) in
  MRegion (Some (if (row < start)%N then row else start, if (end_ < row)%N then row else end_))
    (mr_enabled r) (rcons (mr_cells r) (c, row)).
(* enabled_selectors.entry(selector).or_default().push(row) *)
Fixpoint enabled_push (l : seq (nat * seq nat)) (selector row : nat) : seq (nat * seq nat) :=
  if l is e :: l' then
    if e.1 == selector then (e.1, rcons e.2 row) :: l' else e :: enabled_push l' selector row
  else [:: (selector, [:: row])].

(* dev.rs:271-296 struct MockProver, the fields which synthesis changes *)
Record mock := Mock {
  mk_regions : seq mregion;
  mk_current : option mregion;
  mk_fixed : seq (seq cellv);
  mk_advice : seq (seq cellv);
  mk_selectors : seq (seq bool);
  mk_perm : assembly }.

(* dev.rs:298-311 InstanceValue: None is Padding *)
Definition iv_value (v : option F) : F := odflt 0 v.

Definition with_current (s : mock) (r : option mregion) : mock :=
  Mock (mk_regions s) r (mk_fixed s) (mk_advice s) (mk_selectors s) (mk_perm s).
Definition touch_current (c : column) (row : nat) (s : mock) : mock :=
  with_current s (omap (touch c row) (mk_current s)).

(* dev.rs:405-435 assign_fixed *)
Definition mock_fixed (u column row : nat) (to : value assigned) (s : mock) : res mock :=
  if ~~ (row < u)%N then Err ENotEnoughRows else
  let s := touch_current (Fixed, column) row s in
  rbind (v_assign (v_evaluate to)) (fun x => rbind (put2 (mk_fixed s) column row (CAssigned x)) (fun f =>
    Ok (Mock (mk_regions s) (mk_current s) f (mk_advice s) (mk_selectors s) (mk_perm s)))).
(* dev.rs:452-467 the loop of fill_from_row *)
Fixpoint mock_fill (u column : nat) (rows : seq nat) (to : value assigned) (s : mock) : res mock :=
  if rows is row :: rows' then rbind (mock_fixed u column row to s) (mock_fill u column rows' to)
  else Ok s.

(* dev.rs:313-480 impl Assignment for MockProver *)
Definition mock_op (u : nat) (o : aop F) (s : mock) : res mock :=
  match o with
  | AEnter => if isSome (mk_current s) then Panic else Ok (with_current s (Some (MRegion None [::] [::])))
  | AExit => rbind (unwrap (mk_current s)) (fun r =>
      Ok (Mock (rcons (mk_regions s) r) None (mk_fixed s) (mk_advice s) (mk_selectors s) (mk_perm s)))
  | AEnable selector row =>
      if ~~ (row < u)%N then Err ENotEnoughRows else
      rbind (unwrap (mk_current s)) (fun r =>
      rbind (unwrap (set2 (mk_selectors s) (selector, row) true)) (fun sels =>
        Ok (Mock (mk_regions s) (Some (MRegion (mr_rows r) (enabled_push (mr_enabled r) selector row) (mr_cells r)))
              (mk_fixed s) (mk_advice s) sels (mk_perm s))))
  | AAdvice column row to =>
      if ~~ (row < u)%N then Err ENotEnoughRows else
      let s := touch_current (Advice, column) row s in
      rbind (v_assign (v_evaluate to)) (fun x => rbind (put2 (mk_advice s) column row (CAssigned x)) (fun a =>
        Ok (Mock (mk_regions s) (mk_current s) (mk_fixed s) a (mk_selectors s) (mk_perm s))))
  | AFixed column row to => mock_fixed u column row to s
  | ACopy left_column left_row right_column right_row =>
      if ~~ (left_row < u)%N || ~~ (right_row < u)%N then Err ENotEnoughRows else
      let: (p, r) := copy (mk_perm s) left_column left_row right_column right_row in
      rbind r (fun _ => Ok (Mock (mk_regions s) (mk_current s) (mk_fixed s) (mk_advice s) (mk_selectors s) p))
  | AFill column from_row to =>
      if ~~ (from_row < u)%N then Err ENotEnoughRows else mock_fill u column (drop from_row (iota 0 u)) to s
  end.
(* dev.rs:357-371 query_instance *)
Definition mock_query (u : nat) (instance : seq (seq (option F))) (column row : nat) (s : mock) : res (value F) :=
  if ~~ (row < u)%N then Err ENotEnoughRows else
  ok_or EBoundsFailure (omap (fun v => known (iv_value v)) (obind (fun c => get c row) (get instance column))).

(* dev.rs:504-518 the instance columns, padded to n rows *)
Definition mock_instance (n u : nat) (values : seq F) : res (seq (option F)) :=
  if (u < size values)%N then Err EInstanceTooLarge
  else Ok ([seq Some v | v <- values] ++ nseq (n - size values) None).
(* dev.rs:520-537 *)
Definition mock_new (n u : nat) (m : cs F) : mock :=
  Mock [::] None (nseq (num_fixed m) (nseq n CUnassigned))
    (nseq (num_advice m) (nseq u CUnassigned ++ [seq CPoison i | i <- iota u (n - u)]))
    (nseq (num_selectors m) (nseq n false)) (assembly_new n (permutation m)).

(* a MockProver after run: the number of rows, the usable rows, the constraint system without
   selectors, the instance columns and the rest *)
Record mprover := MProver {
  mp_n : nat; mp_u : nat; mp_cs : cs F; mp_instance : seq (seq (option F)); mp_st : mock }.

(* dev.rs:485-567 MockProver::run; [p] is the synthesis the floor planner runs *)
Definition mock_run (k : nat) (m : cs F) (p : synth F) (instance : seq (seq F)) : res mprover :=
  let n := (2 ^ k)%N in
  if (n < minimum_rows m)%N then Err ENotEnoughRows else
  if size instance != num_instance m then Err EInvalidInstances else
  rbind (usable_rows n m) (fun u =>
  rbind (rmap (mock_instance n u) instance) (fun inst =>
  rbind (run_synth (mock_op u) (mock_query u inst) p (mock_new n u m)) (fun s =>
  rbind (unwrap (compress_selectors m (mk_selectors s))) (fun mp =>
    let poly_cells (poly : seq F) := [seq CAssigned x | x <- take n poly] ++ nseq (n - size poly) CUnassigned in
    Ok (MProver n u mp.1 inst (Mock (mk_regions s) (mk_current s)
          (mk_fixed s ++ [seq poly_cells p | p <- mp.2]) (mk_advice s) (mk_selectors s) (mk_perm s))))))).

(* ---------------------------------------------------------------- verify *)

(* dev/failure.rs enum VerifyFailure *)
Inductive vfailure :=
  | VCell of nat & nat & nat & column & int        (* CellNotAssigned: gate, region, gate_offset, column, offset *)
  | VInstanceCell of nat & nat & nat & nat & nat   (* InstanceCellNotAssigned: gate, region, gate_offset, column, row *)
  | VGate of nat & nat & nat                       (* ConstraintNotSatisfied: gate, polynomial, row *)
  | VPoisoned of nat & nat                         (* ConstraintPoisoned: gate, polynomial *)
  | VLookup of nat & nat                           (* Lookup: lookup, row *)
  | VPermutation of column & nat.                  (* Permutation: column, row *)

(* flat_map over a list, of computations that may panic *)
Definition flat_mapi {T U : Type} (f : nat -> T -> option (seq U)) (s : seq T) : option (seq U) :=
  omap flatten (sequence (mapi f s)).

Section Verify.
Variable lt : rel F.              (* the order of the field, F : Ord *)
Variable pr : mprover.
Let n := mp_n pr. Let u := mp_u pr. Let m := mp_cs pr. Let instance := mp_instance pr. Let s := mp_st pr.

(* dev.rs:579-641 selector_errors *)
Definition selector_errors : option (seq vfailure) :=
  flat_mapi (fun r_i r =>
    flat_mapi (fun _ (e : nat * seq nat) =>
      flat_mapi (fun gate_index g =>
        if ~~ has (fun q : nat * bool => q.1 == e.1) (g_queried_selectors g) then Some [::] else
        flat_mapi (fun _ row =>
          flat_mapi (fun _ (c : column * int) =>
            let cell_row := i32_rem (row%:Z + n%:Z + c.2) n in
            if c.1.1 is Instance then
              if cell_row is Posz cell_row then
                omap (fun v => if isSome v then [::] else [:: VInstanceCell gate_index r_i row c.1.2 cell_row])
                  (get2 instance (c.1.2, cell_row))
              else None
            else
              if has (fun x : column * nat => (x.1 == c.1) && (x.2%:Z == cell_row)) (mr_cells r) then Some [::]
              else omap (fun rows : nat * nat => [:: VCell gate_index r_i row c.1 (cell_row - rows.1%:Z)])
                     (mr_rows r))                                     (* r.rows.unwrap() *)
          (g_queried_cells g)) e.2)
      (gates m)) (mr_enabled r))
  (mk_regions s).

(* dev/util.rs:75-101 load and load_instance, for row in n..2n *)
Definition load (queries : seq (nat * int)) (cells : nat -> nat -> option mval) (row : nat) (index c : nat) (r : int)
    : option mval :=
  obind (fun q : nat * int =>
    if i32_rem (row%:Z + q.2) n is Posz resolved then cells q.1 resolved else None) (get queries index).
(* dev.rs:716-751 the loads of the lookup check: the sum is cast to usize before the reduction;
   n is a power of two, so the reduction is exact *)
Definition load_lookup (queries : seq (nat * int)) (cells : nat -> nat -> option mval) (row : nat) (index c : nat) (r : int)
    : option mval :=
  obind (fun q : nat * int => cells q.1 `|((row%:Z + n%:Z + q.2) %% n)%Z|%N) (get queries index).
Definition fixed_cell (c row : nat) : option mval := omap mv_of (get2 (mk_fixed s) (c, row)).
Definition advice_cell (c row : nat) : option mval := omap mv_of (get2 (mk_advice s) (c, row)).
Definition instance_cell (c row : nat) : option mval :=
  omap (fun v => Real (iv_value v)) (get2 instance (c, row)).
Definition evaluate (ld : seq (nat * int) -> (nat -> nat -> option mval) -> nat -> nat -> nat -> int -> option mval)
    (row : nat) (e : expr F) : option mval :=
  expr_eval (fun x => Some (Real x)) (fun _ _ => None)
    (ld (fixed_queries m) fixed_cell row) (ld (advice_queries m) advice_cell row)
    (ld (instance_queries m) instance_cell row)
    (omap mv_neg) (fun a b => obind (fun a => omap (mv_add a) b) a)
    (fun a b => obind (fun a => omap (mv_mul a) b) a) (fun a f => omap (fun a => mv_scale a f) a) e.

(* dev.rs:643-707 gate_errors *)
Definition gate_errors : option (seq vfailure) :=
  flat_mapi (fun gate_index g =>
    flat_mapi (fun _ row =>
      flat_mapi (fun poly_index poly =>
        omap (fun v => match v with
          | Real x => if x == 0 then [::] else [:: VGate gate_index poly_index (row - n)%N]
          | Poison => [:: VPoisoned gate_index poly_index]
          end) (evaluate load row poly))
      (g_polys g)) (iota n n))
  (gates m).

(* derived Ord on Value: Real before Poison; Vec is compared lexicographically *)
Definition mv_lt (a b : mval) : bool :=
  match a, b with Real x, Real y => lt x y | Real _, Poison => true | _, _ => false end.
Fixpoint vec_lt (a b : seq mval) : bool :=
  match a, b with
  | x :: a', y :: b' => mv_lt x y || (x == y) && vec_lt a' b'
  | [::], _ :: _ => true
  | _, [::] => false
  end.
Definition input_lt (a b : seq mval * nat) : bool := vec_lt a.1 b.1 || (a.1 == b.1) && (a.2 < b.2)%N.

Definition load_tuple (es : seq (expr F)) (row : nat) : option (seq mval) :=
  sequence [seq evaluate load_lookup row e | e <- es].

(* dev.rs:809-832 the merge; [table] is what is left of the table.  binary_search finds an element of
   a sorted slice exactly if there is one. *)
Fixpoint skip_below (table : seq (seq mval)) (input : seq mval) : seq (seq mval) :=
  if table is t :: table' then if vec_lt t input then skip_below table' input else table else [::].
Fixpoint merge_check (l : nat) (whole table : seq (seq mval)) (inputs : seq (seq mval * nat))
    : option (seq vfailure) :=
  if inputs is x :: inputs' then
    let table := skip_below table x.1 in
    if (if table is t :: _ then vec_lt x.1 t else true) then
      if x.1 \in whole then None else omap (cons (VLookup l x.2)) (merge_check l whole table inputs')
    else merge_check l whole table inputs'
  else Some [::].

(* dev.rs:709-833 lookup_errors *)
Definition lookup_check (l : nat) (lk : lookup F) : option (seq vfailure) :=
  if size (lk_table lk) != size (lk_input lk) then None else
  if u == 0%N then None else
  obind (fun fill_row =>
  obind (fun table =>
  obind (fun inputs =>
    let table := sort (fun a b => ~~ vec_lt b a) [seq t <- table | t != fill_row] in
    let inputs := sort (fun a b => ~~ input_lt b a) [seq x <- zip inputs (iota 0 u) | x.1 != fill_row] in
    merge_check l table table inputs)
  (sequence [seq load_tuple (lk_input lk) row | row <- iota 0 u]))
  (sequence [seq load_tuple (lk_table lk) row | row <- iota 0 u]))
  (load_tuple (lk_table lk) u.-1).
Definition lookup_errors : option (seq vfailure) := flat_mapi lookup_check (lookups m).

(* dev.rs:835-880 perm_errors *)
Definition original (c row : nat) : option cellv :=
  obind (fun col : column => match col.1 with
    | Advice => get2 (mk_advice s) (col.2, row)
    | Fixed => get2 (mk_fixed s) (col.2, row)
    | Instance => omap (fun v => CAssigned (iv_value v)) (get2 instance (col.2, row))
    end) (get (permutation m) c).
Definition perm_errors : option (seq vfailure) :=
  flat_mapi (fun c values =>
    flat_mapi (fun row (cell : cell) =>
      obind (fun original_cell => obind (fun permuted_cell =>
        if original_cell == permuted_cell then Some [::]
        else omap (fun col => [:: VPermutation col row]) (get (permutation m) c))
      (original cell.1 cell.2)) (original c row)) values)
  (a_mapping (mk_perm s)).

(* Vec::dedup_by, on duplicate ConstraintPoisoned errors *)
Definition same_poisoned (a b : vfailure) : bool :=
  match a, b with VPoisoned g p, VPoisoned g' p' => (g == g') && (p == p') | _, _ => false end.
Fixpoint dedup (l : seq vfailure) : seq vfailure :=
  if l is a :: l' then
    let l'' := dedup l' in
    if l'' is b :: r then if same_poisoned a b then a :: r else a :: l'' else [:: a]
  else [::].

(* dev.rs:576-907 verify: None is a panic, Some [::] is Ok(()) *)
Definition verify : option (seq vfailure) :=
  obind (fun s => obind (fun g => obind (fun l => omap (fun p =>
    dedup (s ++ g ++ l ++ p)) perm_errors) lookup_errors) gate_errors) selector_errors.
End Verify.
End Mock.
