(* Specification for C37-C40: the table a MockProver holds, and the real traces it stands for. *)
Set Warnings "-notation-overridden,-ambiguous-paths".
From mathcomp Require Import all_ssreflect all_algebra.
From Coq Require Import Relation_Operators.
From Verif Require Import Util M_Env M_Assigned M_Circuit S_Circuit M_Selectors S_Selectors M_Copy P_Copy M_Value
  M_Plonk S_Plonk M_Assign M_Mock S_Floor S_Assign.
Import GRing.Theory.
Set Implicit Arguments.
Unset Strict Implicit.
Local Open Scope ring_scope.

Section Spec.
Variables (F : fieldType) (pr : mprover F).
Local Notation n := (mp_n pr).
Local Notation u := (mp_u pr).
Local Notation m := (mp_cs pr).
Local Notation s := (mp_st pr).

Definition ncols (m : cs F) (t : any) : nat :=
  match t with Fixed => num_fixed m | Advice => num_advice m | Instance => num_instance m end.

(* what MockProver holds in a cell *)
Definition cell_at (t : any) (c row : nat) : cellv F :=
  match t with
  | Fixed => nth (CUnassigned F) (nth [::] (mk_fixed s) c) row
  | Advice => nth (CUnassigned F) (nth [::] (mk_advice s) c) row
  | Instance => CAssigned (iv_value (nth None (nth [::] (mp_instance pr) c) row))
  end.
(* T is a trace of the circuit: a cell that was never assigned is 0, and the blinding rows of the advice
   columns hold anything *)
Definition realises (T : any -> nat -> nat -> F) : Prop :=
  forall t c row, (c < ncols m t)%N -> (row < n)%N ->
    match cell_at t c row with
    | CUnassigned => T t c row = 0 | CAssigned x => T t c row = x | CPoison _ => True end.

(* the value of an expression at a row as far as it does not depend on the blinding; None if it may *)
Definition lift2 (f : F -> F -> F) (absorb : F -> bool) (a b : option F) : option F :=
  match a, b with
  | Some x, Some y => Some (f x y)
  | Some x, None | None, Some x => if absorb x then Some 0 else None
  | None, None => None
  end.
Definition settled (row : nat) (e : expr F) : option F :=
  let cell t c r := match cell_at t c (row_of n row r) with
    | CUnassigned => Some 0 | CAssigned x => Some x | CPoison _ => None end in
  expr_eval Some (fun _ _ => None) (fun _ => cell Fixed) (fun _ => cell Advice) (fun _ => cell Instance)
    (omap -%R) (lift2 +%R (fun _ => false)) (lift2 *%R (fun x => x == 0))
    (fun a f => lift2 *%R (fun x => x == 0) a (Some f)) e.

(* the columns of the queries exist, and no rotation exceeds the number of rows *)
Definition queries_within (n : nat) (m : cs F) : bool :=
  [&& all (fun q : nat * int => (q.1 < num_fixed m)%N && (`|q.2| <= n)%N) (fixed_queries m),
      all (fun q : nat * int => (q.1 < num_advice m)%N && (`|q.2| <= n)%N) (advice_queries m)
    & all (fun q : nat * int => (q.1 < num_instance m)%N && (`|q.2| <= n)%N) (instance_queries m)].
(* a query of a fixed column; the table side of a lookup has no others *)
Definition is_fixed_query (e : expr F) : bool := if e is EFixed _ _ _ then true else false.

(* the state of a MockProver after a run (P_Mock: [C40_run_ok]) *)
Record mp_ok : Prop := MpOk {
  ok_n : (0 < u <= n)%N;
  ok_fixed : rectangle (num_fixed m) n (mk_fixed s);
  ok_advice : rectangle (num_advice m) n (mk_advice s);
  ok_instance : rectangle (num_instance m) n (mp_instance pr);
  ok_clean : forall c row, ~~ if nth (CUnassigned F) (nth [::] (mk_fixed s) c) row is CPoison _ then true else false;
  ok_usable : forall c row, (c < num_advice m)%N -> (row < u)%N ->
    ~~ if nth (CUnassigned F) (nth [::] (mk_advice s) c) row is CPoison _ then true else false;
  ok_exprs : cs_exprs_ok m;
  ok_queries : queries_within n m;
  ok_gates : all (fun g => all (@selector_free F) (g_polys g)) (gates m);
  ok_lookups : all (fun l => [&& size (lk_input l) == size (lk_table l), all (@selector_free F) (lk_input l) &
    all is_fixed_query (lk_table l)]) (lookups m);
  ok_columns : all (fun c : column => (c.2 < ncols m c.1)%N) (permutation m);
  ok_perm : exists calls, mk_perm s = (run_copies (assembly_new n (permutation m)) calls).1 /\
    forall c, List.In c calls -> [&& cc_lc c \in permutation m, cc_rc c \in permutation m,
      (cc_lr c < u)%N & (cc_rr c < u)%N] }.
End Spec.
