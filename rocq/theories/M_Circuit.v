(* Model of halo2_proofs/src/plonk/circuit.rs: Expression (488-764), Constraints (850-896),
   Gate (898-907), ConstraintSystem (934-1472, without compress_selectors, see M_Selectors)
   and VirtualCells (1478-1547), and of lookup.rs (Argument) and permutation.rs (Argument).
   Panics are [None].  Names of gates and constraints, which only feed error messages, are
   not represented. *)
Set Warnings "-notation-overridden,-ambiguous-paths".
From mathcomp Require Import all_ssreflect all_algebra.
From Verif Require Import Util M_Assigned.
Import GRing.Theory.
Set Implicit Arguments.
Unset Strict Implicit.
Local Open Scope ring_scope.

(* circuit.rs:68-80 enum Any *)
Inductive any := Advice | Fixed | Instance.
Definition any_eqb (a b : any) : bool :=
  match a, b with
  | Advice, Advice | Fixed, Fixed | Instance, Instance => true
  | _, _ => false
  end.
Lemma any_eqP : Equality.axiom any_eqb.
Proof. by do 2!case; constructor. Qed.
Definition any_eqMixin := EqMixin any_eqP.
Canonical any_eqType := EqType any any_eqMixin.

(* circuit.rs:21-45 Column<Any>; a column of a known type is its index *)
Definition column := (any * nat)%type.

(* Results of a sequence of operations, the first panic wins *)
Definition all_some {T : Type} (s : seq (option T)) : option (seq T) := sequence s.

Section Circuit.
Variable F : fieldType.

(* circuit.rs:488-508 enum Expression; a Selector is (index, is_simple), a query is
   (query index, column index, rotation) *)
Inductive expr :=
| EConstant of F
| ESelector of nat & bool
| EFixed of nat & nat & int
| EAdvice of nat & nat & int
| EInstance of nat & nat & int
| ENegated of expr
| ESum of expr & expr
| EProduct of expr & expr
| EScaled of expr & F.

(* circuit.rs:510-611 Expression::evaluate *)
Section Evaluate.
Variables (T : Type) (constant : F -> T) (selector : nat -> bool -> T)
  (fixed advice instance : nat -> nat -> int -> T)
  (negated : T -> T) (sum product : T -> T -> T) (scaled : T -> F -> T).
Fixpoint expr_eval (e : expr) : T :=
  match e with
  | EConstant scalar => constant scalar
  | ESelector i simple => selector i simple
  | EFixed i c r => fixed i c r
  | EAdvice i c r => advice i c r
  | EInstance i c r => instance i c r
  | ENegated a => negated (expr_eval a)
  | ESum a b => sum (expr_eval a) (expr_eval b)
  | EProduct a b => product (expr_eval a) (expr_eval b)
  | EScaled a f => scaled (expr_eval a) f
  end.
End Evaluate.

(* circuit.rs:613-626 Expression::degree *)
Fixpoint degree (e : expr) : nat :=
  match e with
  | EConstant _ => 0
  | ESelector _ _ | EFixed _ _ _ | EAdvice _ _ _ | EInstance _ _ _ => 1
  | ENegated a => degree a
  | ESum a b => maxn (degree a) (degree b)
  | EProduct a b => degree a + degree b
  | EScaled a _ => degree a
  end.

(* circuit.rs:633-646 Expression::contains_simple_selector *)
Definition contains_simple_selector (e : expr) : bool :=
  expr_eval (fun _ => false) (fun _ simple => simple) (fun _ _ _ => false) (fun _ _ _ => false)
    (fun _ _ _ => false) id orb orb (fun a _ => a) e.

(* circuit.rs:648-673 Expression::extract_simple_selector; outer None = panic *)
Definition extract_simple_selector (e : expr) : option (option nat) :=
  let op (a b : option (option nat)) :=
    obind (fun a => obind (fun b =>
      match a, b with
      | Some a, None | None, Some a => Some (Some a)
      | Some _, Some _ => None
      | None, None => Some None
      end) b) a in
  expr_eval (fun _ => Some None) (fun i simple => Some (if simple then Some i else None))
    (fun _ _ _ => Some None) (fun _ _ _ => Some None) (fun _ _ _ => Some None) id op op
    (fun a _ => a) e.

(* circuit.rs:722-764 Neg, Add, Sub, Mul, Mul<F> *)
Definition e_neg (a : expr) : expr := ENegated a.
Definition e_add (a b : expr) : option expr :=
  if contains_simple_selector a || contains_simple_selector b then None else Some (ESum a b).
Definition e_sub (a b : expr) : option expr :=
  if contains_simple_selector a || contains_simple_selector b then None
  else Some (ESum a (e_neg b)).
Definition e_mul (a b : expr) : option expr :=
  if contains_simple_selector a && contains_simple_selector b then None
  else Some (EProduct a b).
Definition e_scale (a : expr) (f : F) : expr := EScaled a f.

(* circuit.rs:628-631 Expression::square *)
Definition e_square (a : expr) : option expr := e_mul a a.

(* circuit.rs:856-896 Constraints::with_selector, consumed as an iterator *)
Definition with_selector (selector : expr) (constraints : seq expr) : option (seq expr) :=
  all_some [seq e_mul selector c | c <- constraints].

(* circuit.rs:898-907 Gate *)
Record gate := Gate {
  g_polys : seq expr;
  g_queried_selectors : seq (nat * bool);
  g_queried_cells : seq (column * int) }.

(* lookup.rs:7-23 Argument *)
Record lookup := Lookup { lk_input : seq expr; lk_table : seq expr }.

(* circuit.rs:934-966 ConstraintSystem; permutation.rs:11-16 Argument is its column list *)
Record cs := CS {
  num_fixed : nat; num_advice : nat; num_instance : nat; num_selectors : nat;
  selector_map : seq nat;
  gates : seq gate;
  advice_queries : seq (nat * int);
  num_advice_queries : seq nat;
  instance_queries : seq (nat * int);
  fixed_queries : seq (nat * int);
  permutation : seq column;
  lookups : seq lookup;
  constants : seq nat;
  minimum_degree : option nat }.

(* circuit.rs:996-1015 Default *)
Definition cs_default : cs :=
  {| num_fixed := 0; num_advice := 0; num_instance := 0; num_selectors := 0;
     selector_map := [::]; gates := [::]; advice_queries := [::]; num_advice_queries := [::];
     instance_queries := [::]; fixed_queries := [::]; permutation := [::]; lookups := [::];
     constants := [::]; minimum_degree := None |}.

(* functional updates of the mutable fields *)
Definition set_counts (m : cs) (f a i s : nat) (naq : seq nat) : cs :=
  {| num_fixed := f; num_advice := a; num_instance := i; num_selectors := s;
     selector_map := selector_map m; gates := gates m; advice_queries := advice_queries m;
     num_advice_queries := naq; instance_queries := instance_queries m;
     fixed_queries := fixed_queries m; permutation := permutation m; lookups := lookups m;
     constants := constants m; minimum_degree := minimum_degree m |}.
Definition set_queries (m : cs) (aq : seq (nat * int)) (naq : seq nat) (iq fq : seq (nat * int))
    : cs :=
  {| num_fixed := num_fixed m; num_advice := num_advice m; num_instance := num_instance m;
     num_selectors := num_selectors m; selector_map := selector_map m; gates := gates m;
     advice_queries := aq; num_advice_queries := naq; instance_queries := iq;
     fixed_queries := fq; permutation := permutation m; lookups := lookups m;
     constants := constants m; minimum_degree := minimum_degree m |}.
Definition set_args (m : cs) (gs : seq gate) (perm : seq column) (lks : seq lookup)
    (csts : seq nat) (md : option nat) (sm : seq nat) : cs :=
  {| num_fixed := num_fixed m; num_advice := num_advice m; num_instance := num_instance m;
     num_selectors := num_selectors m; selector_map := sm; gates := gs;
     advice_queries := advice_queries m; num_advice_queries := num_advice_queries m;
     instance_queries := instance_queries m; fixed_queries := fixed_queries m;
     permutation := perm; lookups := lks; constants := csts; minimum_degree := md |}.

(* circuit.rs:1345-1361 selector / complex_selector *)
Definition new_selector (m : cs) (simple : bool) : cs * (nat * bool) :=
  (set_counts m (num_fixed m) (num_advice m) (num_instance m) (num_selectors m).+1
     (num_advice_queries m), (num_selectors m, simple)).
(* circuit.rs:1363-1378 fixed_column (lookup_table_column wraps it) *)
Definition fixed_column (m : cs) : cs * nat :=
  (set_counts m (num_fixed m).+1 (num_advice m) (num_instance m) (num_selectors m)
     (num_advice_queries m), num_fixed m).
(* circuit.rs:1380-1389 advice_column *)
Definition advice_column (m : cs) : cs * nat :=
  (set_counts m (num_fixed m) (num_advice m).+1 (num_instance m) (num_selectors m)
     (rcons (num_advice_queries m) 0%N), num_advice m).
(* circuit.rs:1391-1399 instance_column *)
Definition instance_column (m : cs) : cs * nat :=
  (set_counts m (num_fixed m) (num_advice m) (num_instance m).+1 (num_selectors m)
     (num_advice_queries m), num_instance m).

(* The linear searches of circuit.rs:1088-1092, 1103-1107, 1119-1123, 1143-1147 *)
Fixpoint find_query (qs : seq (nat * int)) (q : nat * int) (index : nat) : option nat :=
  if qs is x :: qs' then if x == q then Some index else find_query qs' q index.+1 else None.

(* circuit.rs:1086-1099 query_fixed_index: always at Rotation::cur() *)
Definition query_fixed_index (m : cs) (c : nat) : cs * nat :=
  if find_query (fixed_queries m) (c, 0) 0 is Some i then (m, i)
  else (set_queries m (advice_queries m) (num_advice_queries m) (instance_queries m)
          (rcons (fixed_queries m) (c, 0)), size (fixed_queries m)).

(* circuit.rs:1101-1115 query_advice_index; None = index out of bounds *)
Definition query_advice_index (m : cs) (c : nat) (at_ : int) : option (cs * nat) :=
  if find_query (advice_queries m) (c, at_) 0 is Some i then Some (m, i)
  else if (c < size (num_advice_queries m))%N then
    Some (set_queries m (rcons (advice_queries m) (c, at_))
            (set_nth 0%N (num_advice_queries m) c (nth 0%N (num_advice_queries m) c).+1)
            (instance_queries m) (fixed_queries m), size (advice_queries m))
  else None.

(* circuit.rs:1117-1130 query_instance_index *)
Definition query_instance_index (m : cs) (c : nat) (at_ : int) : cs * nat :=
  if find_query (instance_queries m) (c, at_) 0 is Some i then (m, i)
  else (set_queries m (advice_queries m) (num_advice_queries m)
          (rcons (instance_queries m) (c, at_)) (fixed_queries m), size (instance_queries m)).

(* circuit.rs:1132-1140 query_any_index *)
Definition query_any_index (m : cs) (c : column) (at_ : int) : option (cs * nat) :=
  match c.1 with
  | Advice => query_advice_index m c.2 at_
  | Fixed => Some (query_fixed_index m c.2)
  | Instance => Some (query_instance_index m c.2 at_)
  end.

(* circuit.rs:1142-1170 get_advice_query_index, get_fixed_query_index,
   get_instance_query_index; None = panic *)
Definition get_advice_query_index (m : cs) (c : nat) (at_ : int) : option nat :=
  find_query (advice_queries m) (c, at_) 0.
Definition get_fixed_query_index (m : cs) (c : nat) (at_ : int) : option nat :=
  find_query (fixed_queries m) (c, at_) 0.
Definition get_instance_query_index (m : cs) (c : nat) (at_ : int) : option nat :=
  find_query (instance_queries m) (c, at_) 0.
(* circuit.rs:1172-1185 get_any_query_index *)
Definition get_any_query_index (m : cs) (c : column) : option nat :=
  match c.1 with
  | Advice => get_advice_query_index m c.2 0
  | Fixed => get_fixed_query_index m c.2 0
  | Instance => get_instance_query_index m c.2 0
  end.

(* permutation.rs:61-65 add_column; circuit.rs:1050-1055 enable_equality *)
Definition enable_equality (m : cs) (c : column) : option cs :=
  omap (fun mi : cs * nat =>
    let m := mi.1 in
    if c \in permutation m then m
    else set_args m (gates m) (rcons (permutation m) c) (lookups m) (constants m)
           (minimum_degree m) (selector_map m))
  (query_any_index m c 0).

(* circuit.rs:1038-1048 enable_constant *)
Definition enable_constant (m : cs) (c : nat) : option cs :=
  if c \in constants m then Some m
  else enable_equality (set_args m (gates m) (permutation m) (lookups m)
         (rcons (constants m) c) (minimum_degree m) (selector_map m)) (Fixed, c).

(* circuit.rs:1057-1084 lookup, after the user's closure has returned the map *)
Definition add_lookup (m : cs) (table_map : seq (expr * nat)) : option (cs * nat) :=
  let step (acc : option (cs * seq (expr * expr))) (it : expr * nat) :=
    obind (fun acc : cs * seq (expr * expr) =>
      if contains_simple_selector it.1 then None else
      let mi := query_fixed_index acc.1 it.2 in
      Some (mi.1, rcons acc.2 (it.1, EFixed mi.2 it.2 0))) acc in
  omap (fun acc : cs * seq (expr * expr) =>
    let m := acc.1 in
    (set_args m (gates m) (permutation m)
       (rcons (lookups m) {| lk_input := unzip1 acc.2; lk_table := unzip2 acc.2 |})
       (constants m) (minimum_degree m) (selector_map m), size (lookups m)))
  (foldl step (Some (m, [::])) table_map).

(* circuit.rs:1187-1192 set_minimum_degree *)
Definition set_minimum_degree (m : cs) (d : nat) : cs :=
  set_args m (gates m) (permutation m) (lookups m) (constants m) (Some d) (selector_map m).

(* circuit.rs:1194-1228 create_gate, after the user's closure has returned the constraints *)
Definition create_gate (m : cs) (g : gate) : option cs :=
  if g_polys g is [::] then None
  else Some (set_args m (rcons (gates m) g) (permutation m) (lookups m) (constants m)
               (minimum_degree m) (selector_map m)).

(* lookup.rs:25-71 required_degree; None = failed assertion *)
Definition lookup_required_degree (l : lookup) : option nat :=
  if size (lk_input l) == size (lk_table l) then
    let input_degree := foldl (fun d e => maxn d (degree e)) 1%N (lk_input l) in
    let table_degree := foldl (fun d e => maxn d (degree e)) 1%N (lk_table l) in
    Some (maxn 4 (2 + input_degree + table_degree))
  else None.

(* permutation.rs:23-59 required_degree *)
Definition permutation_required_degree : nat := 3.

(* Iterator::max, with a default for the empty iterator *)
Definition max_or (s : seq nat) (d : nat) : nat :=
  if s is x :: s' then foldl maxn x s' else d.

(* circuit.rs:1401-1431 degree *)
Definition cs_degree (m : cs) : option nat :=
  omap (fun lds =>
    let d := maxn permutation_required_degree (max_or lds 1) in
    let d := maxn d (max_or (flatten [seq [seq degree p | p <- g_polys g] | g <- gates m]) 0) in
    maxn d (if minimum_degree m is Some md then md else 1%N))
  (all_some [seq lookup_required_degree l | l <- lookups m]).

(* circuit.rs:1433-1460 blinding_factors *)
Definition blinding_factors (m : cs) : nat :=
  let factors := max_or (num_advice_queries m) 1 in
  let factors := maxn 3 factors in
  let factors := factors.+1 in
  factors.+1.

(* circuit.rs:1462-1472 minimum_rows *)
Definition minimum_rows (m : cs) : nat := (blinding_factors m + 1 + 1 + 1)%N.

(* circuit.rs:1478-1491 VirtualCells: the constraint system and what was queried so far *)
Record vcells := VCells {
  vc_meta : cs; vc_sel : seq (nat * bool); vc_cells : seq (column * int) }.
Definition vcells_new (m : cs) : vcells := {| vc_meta := m; vc_sel := [::]; vc_cells := [::] |}.

(* circuit.rs:1493-1497 query_selector *)
Definition vc_query_selector (v : vcells) (s : nat * bool) : vcells * expr :=
  ({| vc_meta := vc_meta v; vc_sel := rcons (vc_sel v) s; vc_cells := vc_cells v |},
   ESelector s.1 s.2).
(* circuit.rs:1499-1507 query_fixed *)
Definition vc_query_fixed (v : vcells) (c : nat) : vcells * expr :=
  let mi := query_fixed_index (vc_meta v) c in
  ({| vc_meta := mi.1; vc_sel := vc_sel v; vc_cells := rcons (vc_cells v) ((Fixed, c), 0) |},
   EFixed mi.2 c 0).
(* circuit.rs:1509-1517 query_advice *)
Definition vc_query_advice (v : vcells) (c : nat) (at_ : int) : option (vcells * expr) :=
  omap (fun mi : cs * nat =>
    ({| vc_meta := mi.1; vc_sel := vc_sel v; vc_cells := rcons (vc_cells v) ((Advice, c), at_) |},
     EAdvice mi.2 c at_)) (query_advice_index (vc_meta v) c at_).
(* circuit.rs:1519-1527 query_instance *)
Definition vc_query_instance (v : vcells) (c : nat) (at_ : int) : vcells * expr :=
  let mi := query_instance_index (vc_meta v) c at_ in
  ({| vc_meta := mi.1; vc_sel := vc_sel v; vc_cells := rcons (vc_cells v) ((Instance, c), at_) |},
   EInstance mi.2 c at_).
(* circuit.rs:1529-1546 query_any *)
Definition vc_query_any (v : vcells) (c : column) (at_ : int) : option (vcells * expr) :=
  match c.1 with
  | Advice => vc_query_advice v c.2 at_
  | Fixed => if at_ != 0 then None else Some (vc_query_fixed v c.2)
  | Instance => Some (vc_query_instance v c.2 at_)
  end.
End Circuit.
