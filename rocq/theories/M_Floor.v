(* Model of the floor planners: SimpleFloorPlanner
   (halo2_proofs/src/circuit/floor_planner/single_pass.rs), V1 (floor_planner/v1.rs and
   floor_planner/v1/strategy.rs), and of the assignment of lookup tables
   (halo2_proofs/src/circuit/table_layouter.rs).

   A floor planner turns the calls a circuit makes on a Layouter ([lprog], M_Layout) into calls
   on an Assignment ([synth], M_Assign).

   Simplifications.  HashMaps from columns are functions, or association lists in order of
   insertion where they are iterated over (the code iterates in an arbitrary order).  A region's
   closure is run twice; the first run (RegionShape) sees unknown instance values.  In that
   run the code also leaves the values of assigned cells unknown; here a closure sees the same
   values of assigned cells in both runs, so that an error it raises because of such a value is
   raised in the first run instead of the second. *)
Set Warnings "-notation-overridden,-ambiguous-paths".
From mathcomp Require Import all_ssreflect all_algebra.
From Verif Require Import Util M_Env M_Assigned M_Circuit M_Selectors M_Copy M_Value M_Region M_Layout M_Assign.
Set Implicit Arguments.
Unset Strict Implicit.

Definition rc_code (c : region_column) : column + nat :=
  match c with RCColumn c => inl c | RCSelector s => inr s end.
Definition rc_decode (c : column + nat) : region_column :=
  match c with inl c => RCColumn c | inr s => RCSelector s end.
Lemma rc_codeK : cancel rc_code rc_decode. Proof. by case. Qed.
Definition rc_eqMixin := CanEqMixin rc_codeK.
Canonical rc_eqType := EqType region_column rc_eqMixin.

(* plonk/circuit.rs:46-104 and layouter.rs:146-156: the order on region columns.  Instance <
   Advice < Fixed, then the index; selectors after columns. *)
Definition rc_rank (c : region_column) : nat * nat :=
  match c with
  | RCColumn (Instance, i) => (0, i) | RCColumn (Advice, i) => (1, i)
  | RCColumn (Fixed, i) => (2, i) | RCSelector s => (3, s)
  end.
Definition rc_leq (a b : region_column) : bool :=
  ((rc_rank a).1 < (rc_rank b).1) || ((rc_rank a).1 == (rc_rank b).1) && ((rc_rank a).2 <= (rc_rank b).2).

(* layouter.rs:116-187 RegionShape: the set of columns, and the row count *)
Record shape := Shape { sh_columns : seq region_column; sh_rows : nat }.
Definition sh_code (s : shape) := (sh_columns s, sh_rows s).
Lemma sh_codeK : cancel sh_code (fun x => Shape x.1 x.2). Proof. by case. Qed.
Definition shape_eqMixin := CanEqMixin sh_codeK.
Canonical shape_eqType := EqType shape shape_eqMixin.

Section Floor.
Variable F : fieldType.
Local Notation assigned := (assigned F).
Local Notation synth := (synth F).

(* layouter.rs:189-285: columns.insert(column); row_count = max(row_count, offset + 1) *)
Definition shape_of (ops : seq (rop F)) : shape :=
  let used := pmap (@rop_uses F) ops in
  Shape (undup [seq u.1 | u <- used]) (foldr maxn 0 [seq u.2.+1 | u <- used]).
(* the measuring run of a closure: layouter.rs:230-257, instance values are unknown *)
Definition measuring : nat -> nat -> value F := fun _ _ => unknown.

(* *self.regions[*cell.region_index] + cell.row_offset: an index out of range is a panic *)
Definition with_row (regions : seq nat) (region offset : nat) (k : nat -> synth) : synth :=
  if get regions region is Some start then k (start + offset) else SPanic F.

(* single_pass.rs:246-365 RegionLayouter for SingleChipLayouterRegion; v1.rs:363-481 for V1Region is
   the same.  [cs] are the constants collected so far with the cells they go to. *)
Fixpoint place_region {A : Type} (regions : seq nat) (r : nat) (p : rprog F A)
    (cs : seq (assigned * cell)) (k : A -> seq (assigned * cell) -> synth) : synth :=
  match p with
  | RRet a => k a cs
  | RErr e => SErr F e
  | RPanic => SPanic F
  | REnable s off q =>
      with_row regions r off (fun row => SOp (AEnable F s row) (place_region regions r q cs k))
  | RAdvice c off v q =>
      with_row regions r off (fun row => SOp (AAdvice c row v) (place_region regions r q cs k))
  | RAdviceConstant c off v q =>
      with_row regions r off (fun row => SOp (AAdvice c row (known v))
        (place_region regions r q (rcons cs (v, Cell r off (Advice, c))) k))
  | RAdviceInstance i irow c off q =>
      SQuery i irow (fun v =>
      with_row regions r off (fun row => SOp (AAdvice c row (v_of_field v))
        (SOp (ACopy F (Advice, c) row (Instance, i) irow) (place_region regions r (q v) cs k))))
  | RInstanceValue i irow q => SQuery i irow (fun v => place_region regions r (q v) cs k)
  | RFixed c off v q =>
      with_row regions r off (fun row => SOp (AFixed c row v) (place_region regions r q cs k))
  | RConstrainConstant c v q => place_region regions r q (rcons cs (v, c)) k
  | RConstrainEqual c c' q =>
      with_row regions (c_region c) (c_offset c) (fun row =>
      with_row regions (c_region c') (c_offset c') (fun row' =>
        SOp (ACopy F (c_column c) row (c_column c') row') (place_region regions r q cs k)))
  end.

(* ---------------------------------------------------------------- lookup tables *)

(* table_layouter.rs:41-46 default_and_assigned: for every table column the default value and
   which rows are assigned *)
Definition tstate := seq (nat * (option (value assigned) * seq bool)).
Fixpoint tget (d : tstate) (c : nat) : option (value assigned) * seq bool :=
  if d is e :: d' then if e.1 == c then e.2 else tget d' c else (None, [::]).
Fixpoint tput (d : tstate) (c : nat) (x : option (value assigned) * seq bool) : tstate :=
  if d is e :: d' then if e.1 == c then (c, x) :: d' else e :: tput d' c x else [:: (c, x)].
(* table_layouter.rs:109-112: resize(offset + 1, false); entry.1[offset] = true *)
Definition mark (off : nat) (s : seq bool) : seq bool :=
  upd (s ++ nseq (off.+1 - size s) false) off true.

(* table_layouter.rs:70-115 SimpleTableLayouter::assign_cell, for each cell of the table.  If
   the back-end does not call the closure [to], the code keeps an unknown default value; such
   a back-end ignores it in fill_from_row too. *)
Fixpoint table_cells (used : seq nat) (ts : seq (tassign F)) (d : tstate) (k : tstate -> synth) : synth :=
  if ts is t :: ts' then
    if ta_column t \in used then SErr F ETable else
    SOp (AFixed (ta_column t) (ta_offset t) (ta_value t))
      (let e := tget d (ta_column t) in
       if (ta_offset t == 0) && isSome e.1 then SErr F ETable else
       table_cells used ts'
         (tput d (ta_column t) (if ta_offset t == 0 then Some (ta_value t) else e.1, mark (ta_offset t) e.2)) k)
  else k d.

(* table_layouter.rs:118-150 compute_table_lengths *)
Definition column_length (e : nat * (option (value assigned) * seq bool)) : res nat :=
  if ~~ isSome e.2.1 || (size e.2.2 == 0) then Err ETable
  else if all id e.2.2 then Ok (size e.2.2) else Err ETable.
Fixpoint column_lengths (d : tstate) : res (seq nat) :=
  if d is e :: d' then
    rbind (column_length e) (fun l => rbind (column_lengths d') (fun ls => Ok (l :: ls)))
  else Ok [::].
Definition compute_table_lengths (d : tstate) : res nat :=
  rbind (column_lengths d) (foldl (fun acc l => rbind acc (fun m =>
    if (m == 0) || (m == l) then Ok l else Err ETable)) (Ok 0)).

(* single_pass.rs:172-182 the loop of fill_from_row *)
Fixpoint fill_columns (from_row : nat) (d : tstate) (k : synth) : synth :=
  if d is e :: d' then
    if e.2.1 is Some v then SOp (AFill e.1 from_row v) (fill_columns from_row d' k) else SPanic F
  else k.
(* single_pass.rs:150-185 assign_table, v1.rs:289-326 the same; [used] are the table columns so far *)
Definition place_table (used : seq nat) (ts : seq (tassign F)) (k : seq nat -> synth) : synth :=
  SOp (AEnter F) (table_cells used ts [::] (fun d =>
  SOp (AExit F) (match compute_table_lengths d with
    | Ok first_unused => fill_columns first_unused d (k (used ++ unzip1 d))
    | Err e => SErr F e
    | Panic => SPanic F
    end))).

(* single_pass.rs:187-199 constrain_instance, v1.rs:328-340 *)
Definition place_instance (regions : seq nat) (c : cell) (col row : nat) (k : synth) : synth :=
  with_row regions (c_region c) (c_offset c) (fun row' =>
    SOp (ACopy F (c_column c) row' (Instance, col) row) k).

(* ---------------------------------------------------------------- SimpleFloorPlanner *)

(* single_pass.rs:41-51 struct SingleChipLayouter *)
Record single := Single {
  sg_regions : seq nat;                     (* the starting row for each region *)
  sg_columns : region_column -> nat;        (* the first empty row for each column, 0 if absent *)
  sg_tables : seq nat }.

(* self.columns.insert(column, x) *)
Definition ins {T : Type} (m : region_column -> T) (c : region_column) (x : T) : region_column -> T :=
  fun c' => if c' == c then x else m c'.

(* single_pass.rs:96-107 *)
Definition region_start (columns : region_column -> nat) (s : shape) : nat :=
  foldl (fun start c => maxn start (columns c)) 0 (sh_columns s).
Definition use_columns (columns : region_column -> nat) (s : shape) (start : nat) : region_column -> nat :=
  foldl (fun m c => ins m c (start + sh_rows s)) columns (sh_columns s).

(* single_pass.rs:119-145 the constants of one region go to consecutive rows of the first
   constants column *)
Fixpoint single_constants (regions : seq nat) (col row : nat) (cs : seq (assigned * cell))
    (k : nat -> synth) : synth :=
  if cs is x :: cs' then
    SOp (AFixed col row (known x.1))
      (with_row regions (c_region x.2) (c_offset x.2) (fun row' =>
        SOp (ACopy F (Fixed, col) row (c_column x.2) row') (single_constants regions col row.+1 cs' k)))
  else k row.
Definition assign_constants (constants : seq nat) (st : single) (cs : seq (assigned * cell))
    (k : single -> synth) : synth :=
  if constants is col :: _ then
    let c := RCColumn (Fixed, col) in
    single_constants (sg_regions st) col (sg_columns st c) cs (fun row =>
      k (Single (sg_regions st) (ins (sg_columns st) c row) (sg_tables st)))
  else if nilp cs then k st else SErr F ENotEnoughColumnsForConstants.

(* single_pass.rs:77-199 Layouter for SingleChipLayouter *)
Fixpoint single_layout {A : Type} (constants : seq nat) (st : single) (p : lprog F A)
    (k : A -> single -> synth) : synth :=
  match p with
  | LRet a => k a st
  | LErr e => SErr F e
  | LPanic => SPanic F
  | LRegion C body q =>
      let r := size (sg_regions st) in
      match returns measuring (body r) with
      | Err e => SErr F e
      | Panic => SPanic F
      | Ok _ =>
          let s := shape_of (calls measuring (body r)) in
          let start := region_start (sg_columns st) s in
          let st := Single (rcons (sg_regions st) start) (use_columns (sg_columns st) s start) (sg_tables st) in
          SOp (AEnter F) (place_region (sg_regions st) r (body r) [::] (fun d cs =>
          SOp (AExit F) (assign_constants constants st cs (fun st => single_layout constants st (q d) k))))
      end
  | LTable ts q => place_table (sg_tables st) ts (fun tables =>
      single_layout constants (Single (sg_regions st) (sg_columns st) tables) q k)
  | LInstance c col row q => place_instance (sg_regions st) c col row (single_layout constants st q k)
  end.
(* single_pass.rs:28-38, 62-75 FloorPlanner for SimpleFloorPlanner *)
Definition simple_floor_planner (constants : seq nat) (p : lprog F unit) : synth :=
  single_layout constants (Single [::] (fun _ => 0) [::]) p (fun _ _ => SDone F).
End Floor.

(* ---------------------------------------------------------------- v1/strategy.rs *)

(* strategy.rs:11-30, 49 Allocations: a BTreeSet of regions (start, length) compared by start only *)
Definition allocations := seq (nat * nat).
(* BTreeSet::insert: an element equal to one in the set is ignored *)
Fixpoint alloc_insert (x : nat * nat) (a : allocations) : allocations :=
  if a is y :: a' then
    if x.1 < y.1 then x :: a else if x.1 == y.1 then a else y :: alloc_insert x a'
  else [:: x].
(* strategy.rs:53-59 unbounded_interval_start *)
Definition unbounded_interval_start (a : allocations) : nat :=
  if a is x :: a' then let y := last x a' in y.1 + y.2 else 0.
(* strategy.rs:64-101 free_intervals: spaces (start, end) *)
Fixpoint free_intervals (a : allocations) (row : nat) (bound : option nat) : seq (nat * option nat) :=
  if a is x :: a' then
    if (if bound is Some e then e <= x.1 else false) then free_intervals a' row bound
    else (if row < x.1 then [:: (row, Some x.1)] else [::]) ++ free_intervals a' (maxn row (x.1 + x.2)) bound
  else if (if bound is Some e then row < e else true) then [:: (row, bound)] else [::].

(* strategy.rs:107-159 first_fit_region.  The two assert!s are panics.  s_slack is an isize;
   here it is a natural number (0 if negative) and `s_slack >= 0' is tested separately.
   A recursive call which returns None changes nothing in the allocations. *)
Fixpoint first_fit_region (m : region_column -> allocations) (columns : seq region_column)
    (len start : nat) (slack : option nat) : res (option (nat * (region_column -> allocations))) :=
  if columns is c :: rest then
    let bound := omap (fun s => start + len + s) slack in
    (fix try (spaces : seq (nat * option nat)) :=
       if spaces is sp :: spaces' then
         let s_slack := omap (fun e => e - sp.1 - len) sp.2 in
         if (if slack is Some sl then if s_slack is Some ss then ~~ (ss <= sl) else false else false) then Panic
         else if (if sp.2 is Some e then sp.1 + len <= e else true) then
           rbind (first_fit_region m rest len sp.1 s_slack) (fun o =>
             if o is Some (row, m') then
               if (if bound is Some e then ~~ (row + len <= e) else false) then Panic
               else Ok (Some (row, ins m' c (alloc_insert (row, len) (m' c))))
             else try spaces')
         else try spaces'
       else Ok None) (free_intervals (m c) start bound)
  else Ok (Some (start, m)).

(* strategy.rs:165-195 slot_in; regions are (region_index, shape) *)
Fixpoint slot_in (m : region_column -> allocations) (regions : seq (nat * shape))
    : res (seq (nat * (nat * shape)) * (region_column -> allocations)) :=
  if regions is s :: regions' then
    rbind (first_fit_region m (sort rc_leq (sh_columns s.2)) (sh_rows s.2) 0 None) (fun o =>
    rbind (unwrap o) (fun rm =>                 (* .expect("We can always fit a region somewhere") *)
    rbind (slot_in rm.2 regions') (fun out => Ok ((rm.1, s) :: out.1, out.2))))
  else Ok ([::], m).

(* strategy.rs:202-215 sort_key: number of advice columns times row count *)
Definition advice_area (s : shape) : nat :=
  count (fun c => if c is RCColumn (Advice, _) then true else false) (sh_columns s) * sh_rows s.
(* strategy.rs:198-242 slot_in_biggest_advice_first.  [order] is the sort by sort_key: the stable
   sort of the default build, or the pdqsort of the feature floor-planner-v1-legacy-pdqsort. *)
Definition slot_in_biggest_advice_first (order : seq (nat * shape) -> seq (nat * shape)) (shapes : seq shape)
    : res (seq nat * (region_column -> allocations)) :=
  rbind (slot_in (fun _ => [::]) (rev (order (zip (iota 0 (size shapes)) shapes)))) (fun out =>
    Ok ([seq x.1 | x <- sort (fun x y : nat * (nat * shape) => x.2.1 <= y.2.1) out.1], out.2)).
(* sort_by_cached_key is a stable sort *)
Definition by_advice_area : seq (nat * shape) -> seq (nat * shape) :=
  sort (fun x y => advice_area x.2 <= advice_area y.2).

Section V1.
Variable F : fieldType.
Local Notation assigned := (assigned F).
Local Notation synth := (synth F).

(* v1.rs:224-250 MeasurementPass: tables and instance constraints are skipped (lines 178-200) *)
Definition measure (p : lprog F unit) : res (seq shape) :=
  rbind (lreturns (@measuring F) 0 p) (fun _ =>
    Ok [seq shape_of c.2 | c <- lregions (@measuring F) 0 p]).

(* v1.rs:163-200, 253-340 AssignmentPass: region r is the r-th one *)
Fixpoint v1_layout {A : Type} (regions : seq nat) (r : nat) (tables : seq nat) (cs : seq (assigned * cell))
    (p : lprog F A) (k : A -> seq (assigned * cell) -> synth) : synth :=
  match p with
  | LRet a => k a cs
  | LErr e => SErr F e
  | LPanic => SPanic F
  | LRegion C body q =>
      SOp (AEnter F) (place_region regions r (body r) cs (fun d cs =>
      SOp (AExit F) (v1_layout regions r.+1 tables cs (q d) k)))
  | LTable ts q => place_table tables ts (fun tables => v1_layout regions r tables cs q k)
  | LInstance c col row q => place_instance regions c col row (v1_layout regions r tables cs q k)
  end.

(* v1.rs:84-89 the rows the planned circuit requires *)
Definition first_unassigned_row (shapes : seq shape) (m : region_column -> allocations) : nat :=
  foldr maxn 0 [seq unbounded_interval_start (m c) | c <- flatten [seq sh_columns s | s <- shapes]].
(* v1.rs:91-111 constant_positions *)
Definition constant_positions (constants : seq nat) (m : region_column -> allocations) (rows : nat) : seq (nat * nat) :=
  flatten [seq flatten [seq [seq (c, i) | i <- iota e.1 (odflt 0 e.2 - e.1)]
                       | e <- free_intervals (m (RCColumn (Fixed, c))) 0 (Some rows)] | c <- constants].
(* v1.rs:124-143 *)
Fixpoint v1_constants (regions : seq nat) (l : seq ((nat * nat) * (assigned * cell))) : synth :=
  if l is x :: l' then
    SOp (AFixed x.1.1 x.1.2 (known x.2.1))
      (with_row regions (c_region x.2.2) (c_offset x.2.2) (fun row =>
        SOp (ACopy F (Fixed, x.1.1) x.1.2 (c_column x.2.2) row) (v1_constants regions l')))
  else SDone F.

(* v1.rs:59-146 FloorPlanner for V1; [p0] is the circuit without witnesses *)
Definition v1_floor_planner (order : seq (nat * shape) -> seq (nat * shape)) (constants : seq nat)
    (p0 p : lprog F unit) : synth :=
  match rbind (measure p0) (fun shapes =>
        rbind (slot_in_biggest_advice_first order shapes) (fun plan => Ok (shapes, plan))) with
  | Err e => SErr F e
  | Panic => SPanic F
  | Ok (shapes, (regions, m)) =>
      v1_layout regions 0 [::] [::] p (fun _ cs =>
        let positions := constant_positions constants m (first_unassigned_row shapes m) in
        if size positions < size cs then SErr F ENotEnoughColumnsForConstants
        else v1_constants regions (zip positions cs))
  end.
End V1.
