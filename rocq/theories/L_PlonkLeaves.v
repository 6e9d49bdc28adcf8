(* The polynomials registered with the coset evaluator: every leaf is the coset of one
   polynomial of n coefficients. *)
Set Warnings "-notation-overridden,-ambiguous-paths".
From mathcomp Require Import all_ssreflect all_algebra.
From Verif Require Import Util M_Poly M_Domain L_Domain P_Domain M_Assigned M_Env M_Transcript M_Commit S_Commit M_Multiopen
  M_Circuit M_Selectors M_Keys M_Permutation L_PermCommit M_Plonk L_Wpe.
Import GRing.Theory.
Set Implicit Arguments.
Unset Strict Implicit.
Local Open Scope ring_scope.

(* every member of the lists is a member of the registered list, at its leaf *)
Lemma register_eachP (T : Type) (x0 : T) (polys : seq T) pss :
  let r := register_each polys pss in
  [/\ r.1 = polys ++ flatten pss, size r.2 = size pss &
   forall i, (i < size pss)%N -> size (nth [::] r.2 i) = size (nth [::] pss i) /\
   forall c, (c < size (nth [::] pss i))%N ->
     (nth 0%N (nth [::] r.2 i) c < size r.1)%N /\ nth x0 r.1 (nth 0%N (nth [::] r.2 i) c) = nth x0 (nth [::] pss i) c].
Proof.
elim: pss polys => [|ps pss IH] polys; first by rewrite /= cats0.
rewrite /register_each -/register_each /register_all /=.
have := IH (polys ++ ps); case: register_each => p ls /= [-> hs h]; split; first by rewrite catA.
  by rewrite /= hs.
case=> [|i] /= hi; last by have [h1 h2] := h i hi; split.
rewrite size_iota; split=> // c hc; rewrite nth_iota // !size_cat -addnA ltn_add2l.
split; first by rewrite ltn_addr.
by rewrite -catA nth_cat ltnNge leq_addr /= addKn nth_cat hc.
Qed.

Section Leaves.
Variables (F B : fieldType) (G : lmodType F) (E : env B G) (ps : params G).
Hypotheses (ok : env_ok E) (pok : params_ok E ps).
Variables (qd : nat) (d : domain F).
Hypothesis hd : domain_new (e_rou E) (e_zeta E) (e_S E) qd (p_k ps) = Some d.
Hypothesis hqd : (2 <= qd)%N.
Notation n := (2 ^ p_k ps)%N.
Notation extends := (extends E ps d).
Notation registered := (registered E ps d).

Lemma extends_refl p : extends p p. Proof. by exists [::]; rewrite ?cats0. Qed.
Lemma extends_trans p q r : extends p q -> extends q r -> extends p r.
Proof.
move=> [m1 -> h1] [m2 -> h2]; exists (m1 ++ m2); first by rewrite catA.
by move=> c; rewrite mem_cat => /orP [/h1|/h2].
Qed.
Lemma registered_ext p q poly leaf : extends p q -> registered p poly leaf -> registered q poly leaf.
Proof. by move=> [m -> _] [h1 h2 h3]; split; rewrite ?size_cat ?ltn_addr // nth_cat h2. Qed.

Lemma coset_of_inj a b : size a = n -> size b = n -> coset_of E d a = coset_of E d b -> a = b.
Proof.
move=> sa sb e.
have ra := C04_extended_roundtrip (fc ok) (ok_threads ok) hd hqd sa.
have rb := C04_extended_roundtrip (fc ok) (ok_threads ok) hd hqd sb.
move: ra rb; rewrite (coset_ofE ok hd sa) (coset_ofE ok hd sb) e => -> [] /eqP.
by rewrite eqseq_cat ?sa ?sb // => /andP [/eqP].
Qed.

(* a list of cosets, and the polynomials they come from *)
Definition cosets (polys : seq (seq F)) (pcs : seq (seq F)) : Prop :=
  polys = [seq coset_of E d p | p <- pcs] /\ all (fun p => size p == n) pcs.
Lemma cosets_ext p q pcs : extends p q -> cosets p pcs -> exists more, cosets q (pcs ++ more).
Proof.
move=> [more -> h] [-> h1].
have [m e1 e2] : exists2 m, more = [seq coset_of E d p | p <- m] & all (fun p => size p == n) m.
  elim: more h => [|c more IH] h; first by exists [::].
  have [|m e1 e2] := IH; first by move=> c' hc; apply: h; rewrite inE hc orbT.
  have [z sz ez] := h c (mem_head _ _); exists (z :: m); rewrite /= ?sz ?eqxx // -e1.
  by move: ez; rewrite (coset_ofE ok hd sz) => -[->].
by exists m; split; rewrite ?map_cat ?all_cat ?h1 ?e1.
Qed.
Lemma registered_cosets p pcs poly leaf : cosets p pcs -> registered p poly leaf ->
  (leaf < size pcs)%N /\ nth [::] pcs leaf = poly.
Proof.
move=> [-> hs] [h1]; rewrite size_map => h2 h3; split=> //.
move: h3; rewrite (coset_ofE ok hd h1) (nth_map [::]) // => -[e].
by apply/esym/coset_of_inj => //; move/(all_nthP [::]): hs => /(_ leaf h2) /eqP.
Qed.
End Leaves.
