(* Generic support (no model content): equalities between linear combinations in a module
   reduce to equalities of coefficients. *)
Set Warnings "-notation-overridden,-ambiguous-paths".
From mathcomp Require Import all_ssreflect all_algebra.
From Verif Require Import FieldTac.
Import GRing.Theory.
Set Implicit Arguments.
Unset Strict Implicit.
Local Open Scope ring_scope.

Section Mod.
Variables (F : fieldType) (G : lmodType F).
Inductive gexp : Type :=
  | GA of nat | GZ | GAdd of gexp & gexp | GOpp of gexp | GScale of F & gexp.
Fixpoint geval (env : seq G) (e : gexp) : G :=
  match e with
  | GA n => env`_n | GZ => 0 | GAdd a b => geval env a + geval env b
  | GOpp a => - geval env a | GScale c a => c *: geval env a end.
Fixpoint gcoef (n : nat) (e : gexp) : F :=
  match e with
  | GA m => if Nat.eqb m n then 1 else 0 | GZ => 0 | GAdd a b => gcoef n a + gcoef n b
  | GOpp a => - gcoef n a | GScale c a => c * gcoef n a end.
Lemma gevalE env e : geval env e = \sum_(i < size env) gcoef i e *: env`_i.
Proof.
elim: e => [m||a IHa b IHb|a IH|c a IH] /=.
- case: (ltnP m (size env)) => h.
    rewrite (bigD1 (Ordinal h)) //= (proj2 (PeanoNat.Nat.eqb_eq m m)) // scale1r big1 ?addr0 //.
    move=> i ne; case e: (Nat.eqb m i); last by rewrite scale0r.
    by move/PeanoNat.Nat.eqb_eq: e ne => e; rewrite -val_eqE /= e eqxx.
  rewrite nth_default // big1 // => i _; case e: (Nat.eqb m i); last by rewrite scale0r.
  by move/PeanoNat.Nat.eqb_eq: e h => ->; rewrite leqNgt ltn_ord.
- by rewrite big1 // => i _; rewrite scale0r.
- by rewrite IHa IHb -big_split; apply: eq_bigr => i _; rewrite scalerDl.
- by rewrite IH (big_morph _ (@opprD _) (@oppr0 _)); apply: eq_bigr => i _; rewrite scaleNr.
by rewrite IH scaler_sumr; apply: eq_bigr => i _; rewrite scalerA.
Qed.
Fixpoint same_upto (n : nat) (e1 e2 : gexp) : Prop :=
  if n is m.+1 then gcoef m e1 = gcoef m e2 /\ same_upto m e1 e2 else True.
Lemma same_eval env e1 e2 : same_upto (size env) e1 e2 -> geval env e1 = geval env e2.
Proof.
move=> h; rewrite !gevalE; apply: eq_bigr => i _; congr (_ *: _).
have := ltn_ord i; move: (nat_of_ord i) h => {i}i; elim: (size env) => // m IH [h1 h2].
by rewrite ltnS leq_eqVlt => /orP [/eqP ->|/IH]; [|exact].
Qed.
End Mod.
Arguments GZ {F}. Arguments GA {F}.

Ltac g_index x l :=
  match l with
  | ?y :: _ => let _ := match goal with _ => constr_eq x y end in constr:(O)
  | _ :: ?l' => let n := g_index x l' in constr:(S n)
  end.
Ltac g_atoms F e l :=
  lazymatch e with
  | @GRing.add _ ?a ?b => let l := g_atoms F a l in g_atoms F b l
  | @GRing.opp _ ?a => g_atoms F a l
  | @GRing.scale _ _ _ ?a => g_atoms F a l
  | @GRing.zero _ => l
  | _ => match l with _ => let _ := g_index e l in l | _ => constr:(e :: l) end
  end.
Ltac g_reify F e l :=
  lazymatch e with
  | @GRing.add _ ?a ?b => let x := g_reify F a l in let y := g_reify F b l in constr:(GAdd x y)
  | @GRing.opp _ ?a => let x := g_reify F a l in constr:(GOpp x)
  | @GRing.scale _ _ ?c ?a => let x := g_reify F a l in constr:(@GScale F c x)
  | @GRing.zero _ => constr:(@GZ F)
  | _ => let n := g_index e l in constr:(@GA F n)
  end.
(* splits the goal into coefficient equations *)
Ltac modsplit F G :=
  lazymatch goal with |- @eq _ ?a ?b =>
    let l := g_atoms F a (@nil G) in
    let l := g_atoms F b l in
    let x := g_reify F a l in let y := g_reify F b l in
    change (@geval F G l x = @geval F G l y);
    apply: same_eval; cbn -[GRing.add GRing.mul GRing.opp GRing.one GRing.zero GRing.inv];
    repeat split
  end.
Section T.
Variables (F : fieldType) (G : lmodType F).
Add Field Ff : (F_field_theory F).
Goal forall (a b : F) (P Q : G), (a + b) *: (P - Q) + a *: Q = b *: P + a *: P - b *: Q.
Proof. by move=> a b P Q; modsplit F G; fnorm F; ring. Qed.
End T.
Ltac abel F G := modsplit F G; fnorm F; ring.
