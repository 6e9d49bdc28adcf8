(* Specification for gadgets that lay out several regions, on top of S_Region. *)
Set Warnings "-notation-overridden,-ambiguous-paths".
From mathcomp Require Import all_ssreflect all_algebra.
From Verif Require Import Util M_Env M_Assigned M_Circuit S_Circuit M_Value M_Region S_Region M_Layout.
Import GRing.Theory.
Set Implicit Arguments.
Unset Strict Implicit.
Local Open Scope ring_scope.

Section Spec.
Variables (F : fieldType) (T : table F) (place : nat -> int) (inst : nat -> nat -> value F).

(* the finished table respects every call in every region, and the constraints with instance cells *)
Definition lrespects {A : Type} (r : nat) (p : lprog F A) : Prop :=
  List.Forall (fun c => respects T place c.1 c.2) (lregions inst r p) /\
  List.Forall (fun c : cell * (nat * nat) => cell_value T place c.1 = t_cell T Instance c.2.1 c.2.2%:Z)
    (linstances inst r p).
Definition lhonest {A : Type} (r : nat) (p : lprog F A) : Prop :=
  List.Forall (fun c => honest T place c.1 c.2) (lregions inst r p).
Definition lselectors_on {A : Type} (r : nat) (p : lprog F A) : Prop :=
  List.Forall (fun c => selectors_on T place c.1 c.2) (lregions inst r p).
(* the program turned selector s on at this row *)
Definition turned_on (regions : seq (nat * seq (rop F))) (s : nat) (row : int) : Prop :=
  List.Exists (fun c => exists2 off : nat, enabled_in c.2 s off & row = place c.1 + off%:Z) regions.
(* the selectors in [sels] are on only where these regions turned them on *)
Definition on_only_in (regions : seq (nat * seq (rop F))) (sels : seq nat) : Prop :=
  forall s row, s \in sels -> t_selector T s row -> turned_on regions s row.
(* ... or where these gates hold for another reason (for example another use of the same chip) *)
Definition on_here (gates : seq (expr F)) (sels : seq nat) (regions : seq (nat * seq (rop F))) : Prop :=
  forall s row, s \in sels -> t_selector T s row ->
    turned_on regions s row \/ all (fun g => at_row T row g == 0) gates.
End Spec.
