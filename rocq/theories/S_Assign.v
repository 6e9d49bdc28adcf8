(* Specification of what a sequence of calls on an Assignment asks for: the last value written to
   every cell, the selectors turned on, the copies made. *)
Set Warnings "-notation-overridden,-ambiguous-paths".
From mathcomp Require Import all_ssreflect all_algebra.
From Verif Require Import Util M_Env M_Assigned P_Assigned M_Circuit M_Selectors M_Copy M_Value M_Assign M_Mock S_Floor.
Import GRing.Theory.
Set Implicit Arguments.
Unset Strict Implicit.

Section Spec.
Variable F : fieldType.
Implicit Types (tr : seq (aop F)).

(* the calls made one after the other; the first failure ends the run *)
Fixpoint run_calls {S : Type} (op : aop F -> S -> res S) tr (s : S) : res S :=
  if tr is o :: tr' then rbind (op o s) (run_calls op tr') else Ok s.

(* the rows a call touches *)
Definition rows_touched (o : aop F) : seq nat :=
  match o with
  | AEnable _ row | AAdvice _ row _ | AFixed _ row _ | AFill _ row _ => [:: row]
  | ACopy _ row _ row' => [:: row; row']
  | _ => [::]
  end.
Definition is_advice (o : aop F) : bool := if o is AAdvice _ _ _ then true else false.

(* the last value written to a cell of a fixed or advice column, if any; fill_from_row writes all
   usable rows (those below u) from the given one *)
Definition fixed_written (u : nat) tr (c row : nat) : option (value (assigned F)) :=
  foldl (fun w o => match o with
    | AFixed c' row' v => if (c' == c) && (row' == row) then Some v else w
    | AFill c' from v => if (c' == c) && (from <= row < u) then Some v else w
    | _ => w end) None tr.
Definition advice_written tr (c row : nat) : option (value (assigned F)) :=
  foldl (fun w o => if o is AAdvice c' row' v then if (c' == c) && (row' == row) then Some v else w else w) None tr.
Definition selected tr (s row : nat) : bool :=
  has (fun o => if o is AEnable s' row' then (s' == s) && (row' == row) else false) tr.
Definition copies tr : seq copy_call :=
  pmap (fun o => if o is ACopy c row c' row' then Some (CopyCall c row c' row') else None) tr.

(* [x] is in a table of w columns and h rows, at column c and row i *)
Definition rectangle {T : Type} (w h : nat) (v : seq (seq T)) : Prop :=
  size v = w /\ forall c, c < w -> size (nth [::] v c) = h.

(* a written value, and the value found *)
Definition holds_written (w : option (value (assigned F))) (x : assigned F) : Prop :=
  if w is Some v then v = known x else x = ATrivial 0%R.
Definition holds_cell (w : option (value (assigned F))) (c0 x : cellv F) : Prop :=
  if w is Some v then exists2 y, v = known y & x = CAssigned (a_evaluate y) else x = c0.

(* ---- The state of a back-end after the calls tr.  There are u usable rows of n, nf fixed columns, na
   advice columns, ns selectors, and [cols] are the columns of the permutation. *)
Section State.
Variables (u n nf na ns : nat) (cols : seq column).

(* the copies were all accepted, and are those of C23 *)
Record copies_done tr (p : assembly) : Prop := CopiesDone {
  cd_state : p = (run_copies (assembly_new n cols) (copies tr)).1;
  cd_results : (run_copies (assembly_new n cols) (copies tr)).2 = nseq (size (copies tr)) (Ok tt) }.

(* key generation: fixed cells hold the last value written, 0 if there is none; every call but the
   advice assignments touches usable rows only *)
Record kstate tr (a : kassembly F) : Prop := KState {
  ks_rect : rectangle nf n (ka_fixed a);
  ks_srect : rectangle ns n (ka_selectors a);
  ks_fixed : forall c row, c < nf -> row < n ->
    holds_written (fixed_written u tr c row) (nth (ATrivial 0%R) (nth [::] (ka_fixed a) c) row);
  ks_sel : forall s row, s < ns -> row < n -> nth false (nth [::] (ka_selectors a) s) row = selected tr s row;
  ks_perm : copies_done tr (ka_perm a);
  ks_rows : forall o, List.In o tr -> ~~ is_advice o -> all (fun r => r < u) (rows_touched o) }.

(* the prover's advice *)
Record wstate tr (a : seq (seq (assigned F))) : Prop := WState {
  ws_rect : rectangle na n a;
  ws_advice : forall c row, c < na -> row < n ->
    holds_written (advice_written tr c row) (nth (ATrivial 0%R) (nth [::] a c) row);
  ws_rows : forall o, List.In o tr -> is_advice o -> all (fun r => r < u) (rows_touched o) }.

(* MockProver; rows which are not usable are poisoned *)
Definition blank_advice (row : nat) : cellv F := if row < u then CUnassigned F else CPoison F row.
Record mstate tr (s : mock F) : Prop := MState {
  ms_rect : rectangle nf n (mk_fixed s);
  ms_arect : rectangle na n (mk_advice s);
  ms_srect : rectangle ns n (mk_selectors s);
  ms_fixed : forall c row, c < nf -> row < n ->
    holds_cell (fixed_written u tr c row) (CUnassigned F) (nth (CUnassigned F) (nth [::] (mk_fixed s) c) row);
  ms_advice : forall c row, c < na -> row < n ->
    holds_cell (advice_written tr c row) (blank_advice row) (nth (CUnassigned F) (nth [::] (mk_advice s) c) row);
  ms_sel : forall q row, q < ns -> row < n -> nth false (nth [::] (mk_selectors s) q) row = selected tr q row;
  ms_perm : copies_done tr (mk_perm s);
  ms_rows : forall o, List.In o tr -> all (fun r => r < u) (rows_touched o) }.
End State.

(* Two sequences of calls which differ at most in the values given to advice cells. *)
Definition alike (o o' : aop F) : Prop :=
  match o, o' with
  | AAdvice c row _, AAdvice c' row' _ => c = c' /\ row = row'
  | _, _ => o = o'
  end.
End Spec.
