(* Specification of a floor plan: where the regions of a circuit, its constants and its tables
   end up in the table, and which calls are made on the back-end for them. *)
Set Warnings "-notation-overridden,-ambiguous-paths".
From mathcomp Require Import all_ssreflect all_algebra.
From Verif Require Import Util M_Env M_Assigned P_Assigned M_Circuit S_Circuit M_Value M_Region S_Region
  M_Layout S_Layout M_Assign M_Floor.
Import GRing.Theory.
Set Implicit Arguments.
Unset Strict Implicit.

Section Spec.
Variables (F : fieldType) (inst : nat -> nat -> value F).
Local Notation assigned := (assigned F).

(* The calls a synthesis makes on a back-end that answers the instance queries with [inst] and
   accepts every call; Err or Panic if the synthesis ends that way. *)
Fixpoint performed (p : synth F) : res (seq (aop F)) :=
  match p with
  | SDone => Ok [::]
  | SErr e => Err e
  | SPanic => Panic
  | SOp o k => rbind (performed k) (fun t => Ok (o :: t))
  | SQuery c r k => performed (k (inst c r))
  end.

(* What a circuit asks its Layouter for, in order: regions (with their calls), tables, and
   constraints with instance cells. *)
Inductive levent :=
  | VRegion of nat & seq (rop F)
  | VTable of seq (tassign F)
  | VInstance of cell & nat & nat.
Fixpoint levents {A : Type} (r : nat) (p : lprog F A) : seq levent :=
  match p with
  | LRet _ | LErr _ | LPanic => [::]
  | LRegion C body k => VRegion r (calls inst (body r)) ::
      (if returns inst (body r) is Ok d then levents r.+1 (k d) else [::])
  | LTable ts k => VTable ts :: levents r k
  | LInstance c col row k => VInstance c col row :: levents r k
  end.

(* columns (and selectors) a region uses, and its height *)
Definition columns_of (ops : seq (rop F)) : seq region_column := [seq u.1 | u <- pmap (@rop_uses F) ops].
Definition height (ops : seq (rop F)) : nat := foldr maxn 0 [seq u.2.+1 | u <- pmap (@rop_uses F) ops].
(* the constants a region asks for, and the cells they are for *)
Definition wanted (r : nat) (ops : seq (rop F)) : seq (assigned * cell) :=
  pmap (fun o : rop F => match o with
    | OAdviceConstant c off v => Some (v, Cell r off (Advice, c))
    | OConstrainConstant c v => Some (v, c)
    | _ => None end) ops.

(* A floor plan: region r starts at row [place r]; the i-th constant goes to [cpos i], a fixed
   column and a row. *)
Variables (place : nat -> nat) (cpos : nat -> nat * nat).
Definition cell_row (c : cell) : nat := place (c_region c) + c_offset c.

(* A call made in region r at an offset is made on the back-end at that offset from the start of the
   region. *)
Definition moved (r : nat) (o : rop F) : seq (aop F) :=
  match o with
  | OEnable s off => [:: AEnable F s (place r + off)]
  | OAdvice c off v => [:: AAdvice c (place r + off) v]
  | OAdviceConstant c off v => [:: AAdvice c (place r + off) (known v)]
  | OAdviceInstance i row c off v =>
      [:: AAdvice c (place r + off) (v_of_field v); ACopy F (Advice, c) (place r + off) (Instance, i) row]
  | OInstanceValue _ _ => [::]
  | OFixed c off v => [:: AFixed c (place r + off) v]
  | OConstrainConstant _ _ => [::]
  | OConstrainEqual c c' => [:: ACopy F (c_column c) (cell_row c) (c_column c') (cell_row c')]
  end.
(* constants number i, i+1, ...: each is written to its own cell and copied to where it is wanted *)
Fixpoint constant_calls (i : nat) (cs : seq (assigned * cell)) : seq (aop F) :=
  if cs is x :: cs' then
    AFixed (cpos i).1 (cpos i).2 (known x.1) ::
    ACopy F (Fixed, (cpos i).1) (cpos i).2 (c_column x.2) (cell_row x.2) :: constant_calls i.+1 cs'
  else [::].

(* A table: its columns (in order of first use), its length, and the value in row 0 of a column *)
Definition table_columns (ts : seq (tassign F)) : seq nat := rev (undup (rev [seq ta_column t | t <- ts])).
Definition table_length (ts : seq (tassign F)) : nat := foldr maxn 0 [seq (ta_offset t).+1 | t <- ts].
Fixpoint table_default (ts : seq (tassign F)) (c : nat) : value assigned :=
  if ts is t :: ts' then
    if (ta_column t == c) && (ta_offset t == 0) then ta_value t else table_default ts' c
  else unknown.
(* every cell is assigned and the rest of every column is filled with its row-0 value *)
Definition table_calls (ts : seq (tassign F)) : seq (aop F) :=
  AEnter F :: [seq AFixed (ta_column t) (ta_offset t) (ta_value t) | t <- ts] ++
  AExit F :: [seq AFill c (table_length ts) (table_default ts c) | c <- table_columns ts].
(* all cells of all columns up to one length are assigned *)
Definition table_complete (ts : seq (tassign F)) : Prop :=
  forall c off, c \in table_columns ts ->
    has (fun t => (ta_column t == c) && (ta_offset t == off)) ts = (off < table_length ts).

Definition region_calls (r : nat) (ops : seq (rop F)) : seq (aop F) :=
  AEnter F :: flatten [seq moved r o | o <- ops] ++ [:: AExit F].
Definition event_calls (e : levent) : seq (aop F) :=
  match e with
  | VRegion r ops => region_calls r ops
  | VTable ts => table_calls ts
  | VInstance c col row => [:: ACopy F (c_column c) (cell_row c) (Instance, col) row]
  end.
Definition event_wants (e : levent) : seq (assigned * cell) :=
  if e is VRegion r ops then wanted r ops else [::].
(* the whole circuit, constants right after the region that wants them (numbered from i) ... *)
Fixpoint plan_calls_inline (i : nat) (es : seq levent) : seq (aop F) :=
  if es is e :: es' then
    event_calls e ++ constant_calls i (event_wants e) ++ plan_calls_inline (i + size (event_wants e)) es'
  else [::].
(* ... or all at the end *)
Definition plan_calls_at_end (es : seq levent) : seq (aop F) :=
  flatten [seq event_calls e | e <- es] ++ constant_calls 0 (flatten [seq event_wants e | e <- es]).
Definition all_wanted (es : seq levent) : seq (assigned * cell) := flatten [seq event_wants e | e <- es].

(* Two regions which use a common column (or selector) occupy disjoint ranges of rows. *)
Definition no_overlap (regions : seq (nat * seq (rop F))) : Prop :=
  forall r ops r' ops' c, List.In (r, ops) regions -> List.In (r', ops') regions -> r <> r' ->
    c \in columns_of ops -> c \in columns_of ops' ->
    place r + height ops <= place r' \/ place r' + height ops' <= place r.
(* The cells of the first n constants are distinct cells of [constants], outside the rows of every
   region that uses their column. *)
Definition constants_apart (constants : seq nat) (n : nat) (regions : seq (nat * seq (rop F))) : Prop :=
  (forall i, i < n -> (cpos i).1 \in constants) /\
  (forall i j, i < n -> j < n -> cpos i = cpos j -> i = j) /\
  (forall i r ops, i < n -> List.In (r, ops) regions -> RCColumn (Fixed, (cpos i).1) \in columns_of ops ->
    (cpos i).2 < place r \/ place r + height ops <= (cpos i).2).
End Spec.

(* The measuring run of every region, in which instance values are unknown, uses every column
   and offset the assigning run uses: the closures do not depend on witnesses or instances in
   which cells they assign. *)
Fixpoint measured_alike {F : fieldType} (inst : nat -> nat -> value F) {A : Type} (r : nat) (p : lprog F A) : Prop :=
  match p with
  | LRet _ | LErr _ | LPanic => True
  | LRegion C body k =>
      {subset pmap (@rop_uses F) (calls inst (body r)) <= pmap (@rop_uses F) (calls (@measuring F) (body r))} /\
      (if returns inst (body r) is Ok d then measured_alike inst r.+1 (k d) else True)
  | LTable _ k | LInstance _ _ _ k => measured_alike inst r k
  end.

(* Two placed shapes (start row, shape) collide: they use a common column and a common row. *)
Definition collide (x y : nat * shape) : Prop :=
  exists c row, [/\ c \in sh_columns x.2, c \in sh_columns y.2,
    x.1 <= row < x.1 + sh_rows x.2 & y.1 <= row < y.1 + sh_rows y.2].
(* A shape which uses some column has at least one row, and its columns are a set: all shapes
   measured by RegionShape are like that. *)
Definition shape_ok (s : shape) : bool := uniq (sh_columns s) && ((0 < sh_rows s) || nilp (sh_columns s)).

Local Open Scope ring_scope.
(* A finished table agrees with the calls made on the back-end: selectors, fixed values and copies. *)
Definition agrees {F : fieldType} (T : table F) (tr : seq (aop F)) : Prop :=
  List.Forall (fun o : aop F => match o with
    | AEnable s row => is_true (t_selector T s row%:Z)
    | AFixed c row v => forall x, v = known x -> t_cell T Fixed c row%:Z = denote x
    | ACopy c row c' row' => t_cell T c.1 c.2 row%:Z = t_cell T c'.1 c'.2 row'%:Z
    | _ => True end) tr.
(* ... and advice values, for an honest prover *)
Definition agrees_advice {F : fieldType} (T : table F) (tr : seq (aop F)) : Prop :=
  List.Forall (fun o : aop F => if o is AAdvice c row v then
    forall x, v = known x -> t_cell T Advice c row%:Z = denote x else True) tr.
(* selectors are on only where a call turned them on *)
Definition only_selected {F : fieldType} (T : table F) (tr : seq (aop F)) : Prop :=
  forall s row, t_selector T s row -> List.Exists (fun o : aop F =>
    if o is AEnable s' row' then s' = s /\ row = row'%:Z else False) tr.

(* What the theorems about gadgets need to know of a floor plan: a table that agrees with the calls
   made on the back-end respects the circuit's regions, placed at [place]; an honest prover's table
   is honest in every region; selectors are on only where a region turned them on; and no other
   region turns on a region's own selectors within its rows. *)
Definition carries_out {F : fieldType} (inst : nat -> nat -> value F) (place : nat -> nat) (p : lprog F unit)
    (tr : seq (aop F)) : Prop :=
  let at_ r := (place r)%:Z in
  [/\ forall T, agrees T tr -> lrespects T at_ inst 0 p,
    forall T, agrees T tr -> agrees_advice T tr -> lhonest T at_ inst 0 p,
    forall T sels, only_selected T tr -> on_only_in T at_ (lregions inst 0 p) sels &
    forall T r ops sels, agrees T tr -> only_selected T tr -> List.In (r, ops) (lregions inst 0 p) ->
      (forall s, s \in sels -> RCSelector s \in columns_of ops) ->
      only_enabled T at_ r (height ops) sels ops].
