(* Tables for the examples: the table a program's calls describe, and decidable versions of
   the specification's predicates on it. *)
Set Warnings "-notation-overridden,-ambiguous-paths".
From mathcomp Require Import all_ssreflect all_algebra.
From Verif Require Import Util M_Env M_Assigned P_Assigned M_Circuit S_Circuit M_Value M_Region S_Region M_Layout S_Layout.
Import GRing.Theory.
Set Implicit Arguments.
Unset Strict Implicit.
Local Open Scope ring_scope.

Section Table.
Variables (F : fieldType) (place : nat -> int).
Implicit Types (o : rop F) (regions : seq (nat * seq (rop F))).

(* the value a call writes: (kind, column, offset, value) *)
Definition writes o : option (any * nat * nat * F) :=
  match o with
  | OAdvice c off v => omap (fun x => (Advice, c, off, denote x)) (inner v)
  | OFixed c off v => omap (fun x => (Fixed, c, off, denote x)) (inner v)
  | OAdviceConstant c off x => Some (Advice, c, off, denote x)
  | OAdviceInstance _ _ c off v => omap (fun x => (Advice, c, off, x)) (inner v)
  | _ => None
  end.
Definition lookup_cell regions (k : any) (c : nat) (row : int) : F :=
  foldl (fun acc rc => foldl (fun acc o =>
    if writes o is Some (k', c', off, x) then
      if [&& k' == k, c' == c & place rc.1 + off%:Z == row] then x else acc
    else acc) acc rc.2) 0 regions.
Definition table_of regions : table F :=
  Table (lookup_cell regions)
    (fun s row => has (fun rc => has (fun o : rop F => if o is OEnable s' off then (s' == s) && (place rc.1 + off%:Z == row) else false) rc.2) regions).

Lemma table_of_only regions sels : on_only_in (table_of regions) place regions sels.
Proof.
move=> s row _ /=; elim: regions => [|rc l IH] //= /orP[h|/IH h]; last by apply: List.Exists_cons_tl.
apply: List.Exists_cons_hd; elim: rc.2 h => [|o ops IH'] //= /orP[|/IH'[off h e]].
  case: o => // s' off /andP[/eqP -> /eqP <-]; exists off => //=; by rewrite !eqxx.
by exists off => //; rewrite h orbT.
Qed.

Variable T : table F.
Definition honest_opb r o : bool :=
  match o with
  | OAdvice c off v => if inner v is Some x then t_cell T Advice c (place r + off%:Z) == denote x else true
  | OAdviceConstant c off x => t_cell T Advice c (place r + off%:Z) == denote x
  | OAdviceInstance i row c off v => if inner v is Some x then t_cell T Advice c (place r + off%:Z) == x else true
  | OFixed c off v => if inner v is Some x then t_cell T Fixed c (place r + off%:Z) == denote x else true
  | OEnable s off => t_selector T s (place r + off%:Z)
  | _ => true
  end.
Lemma honest_opP r o : honest_opb r o -> honest_op T place r o.
Proof.
have key (v : value (assigned F)) k c off : (if inner v is Some x then t_cell T k c (place r + off%:Z) == denote x else true) ->
    forall x, v = known x -> t_cell T k c (place r + off%:Z) = denote x by case: v => -[x|] //= /eqP h y [<-].
case: o => //=; try by move=> *; apply: key; eassumption.
- by move=> *; apply/eqP.
by move=> i row c off [[x|]] //= /eqP h y [<-].
Qed.
Definition honestb regions : bool := all (fun rc => all (honest_opb rc.1) rc.2) regions.
Lemma honestP regions : honestb regions ->
  List.Forall (fun c => honest T place c.1 c.2) regions /\ List.Forall (fun c => selectors_on T place c.1 c.2) regions.
Proof.
have key1 r ops : all (honest_opb r) ops -> honest T place r ops.
  elim: ops => [|o ops IH]; first by constructor.
  by move=> /= /andP[/honest_opP h1 /IH h2]; apply: List.Forall_cons.
have key2 r ops : all (honest_opb r) ops -> selectors_on T place r ops.
  elim: ops => [|o ops IH]; first by constructor.
  by move=> /= /andP[h1 /IH h2]; apply: List.Forall_cons => //; case: o h1.
elim: regions => [|rc l IH]; first by split; constructor.
by move=> /= /andP[h1 /IH[h2 h3]]; split; apply: List.Forall_cons => //; [exact: key1|exact: key2].
Qed.
End Table.
