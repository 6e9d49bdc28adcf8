(* Writer programs only append: to the absorbed bytes and to the output *)
Set Warnings "-notation-overridden,-ambiguous-paths".
From mathcomp Require Import all_ssreflect all_algebra.
From Verif Require Import Util M_FFT M_Multiexp M_Poly M_Domain M_Env M_Transcript L_Transcript M_Commit M_IPA.
Import GRing.Theory.
Set Implicit Arguments.
Unset Strict Implicit.
Local Open Scope ring_scope.

(* s' extends s *)
Definition extends (s s' : wst) : Prop :=
  (exists a, w_abs s' = w_abs s ++ a) /\ (exists o, w_out s' = w_out s ++ o).
Definition mono A (x : W A) : Prop := forall s a s', x s = Ok (a, s') -> extends s s'.

Lemma extends_refl s : extends s s.
Proof. by split; exists [::]; rewrite cats0. Qed.
Lemma extends_trans s1 s2 s3 : extends s1 s2 -> extends s2 s3 -> extends s1 s3.
Proof.
move=> [[a1 e1] [o1 f1]] [[a2 e2] [o2 f2]].
by split; [exists (a1 ++ a2); rewrite e2 e1 catA | exists (o1 ++ o2); rewrite f2 f1 catA].
Qed.
Lemma extends_silent s s' : silent s s' -> extends s s'.
Proof. by move=> [e1 e2]; split; exists [::]; rewrite cats0 ?e1 ?e2. Qed.

Lemma mono_ret A (a : A) : mono (mret a).
Proof. by move=> s b s' [_ <-]; exact: extends_refl. Qed.
Lemma mono_lift A (r : res A) : mono (mlift r).
Proof. by move=> s b s' h; have [_ ->] := mlift_inv h; exact: extends_refl. Qed.
Lemma mono_bind A C (x : W A) (f : A -> W C) : mono x -> (forall a, mono (f a)) -> mono (mbind x f).
Proof.
by move=> hx hf s c s' h; sbind h a s1 => h1; exact: extends_trans (hx _ _ _ h1) (hf _ _ _ _ h).
Qed.
Lemma mono_mmap A C (f : A -> W C) l : (forall a, mono (f a)) -> mono (mmap f l).
Proof.
move=> hf; elim: l => [|x l IH]; first exact: mono_ret.
by apply: mono_bind => // y; apply: mono_bind => // ys; exact: mono_ret.
Qed.
Lemma mono_mfold A C (f : C -> A -> W C) acc l : (forall c a, mono (f c a)) -> mono (mfold f acc l).
Proof.
move=> hf; elim: l acc => [|x l IH] acc; first exact: mono_ret.
by apply: mono_bind => // y; exact: IH.
Qed.
Lemma mono_map_err A e (x : W A) : mono x -> mono (mmap_err e x).
Proof. by move=> hx s a s'; rewrite /mmap_err /map_err; case h: (x s) => [[b s1]|er|] // [_ <-]; exact: hx h. Qed.
Lemma mono_if A (b : bool) (x y : W A) : mono x -> mono y -> mono (if b then x else y).
Proof. by case: b. Qed.

Section T.
Variables (F B : fieldType) (G : lmodType F) (E : env B G).
Lemma mono_draw : mono (draw (E := E)).
Proof. by move=> s a s' [_ <-]; split; exists [::]; rewrite /= cats0. Qed.
Lemma mono_common_point p : mono (w_common_point E p).
Proof.
move=> s a s'; rewrite /w_common_point /absorb_point; case: e_coords => [[x y]|] //= [_ <-].
split; last by exists [::]; rewrite cats0.
by eexists; rewrite /= -!catA.
Qed.
Lemma mono_common_scalar x : mono (w_common_scalar E x).
Proof.
move=> s a s' [_ <-]; split; last by exists [::]; rewrite cats0.
by eexists; rewrite /= /absorb_scalar -!catA.
Qed.
Lemma mono_put b : mono (w_put b).
Proof. by move=> s a s' [_ <-]; split; [exists [::]; rewrite cats0 | exists b]. Qed.
Lemma mono_write_point p : mono (write_point E p).
Proof. by apply: mono_bind => [|_]; [exact: mono_common_point | exact: mono_put]. Qed.
Lemma mono_write_scalar p : mono (write_scalar E p).
Proof. by apply: mono_bind => [|_]; [exact: mono_common_scalar | exact: mono_put]. Qed.
Lemma mono_squeeze : mono (w_squeeze E).
Proof.
apply: mono_bind => [s a s' [_ <-]|c]; last exact: mono_lift.
split; last by exists [::]; rewrite cats0.
by eexists; rewrite /= /absorb_challenge.
Qed.
Lemma mono_draws n : mono (draws E n).
Proof. by apply: mono_mmap => _; exact: mono_draw. Qed.

Variable ps : params G.
Lemma mono_ipa_rounds z j p b g f : mono (ipa_rounds E ps z j p b g f).
Proof.
elim: j p b g f => [|j IH] p b g f; first exact: mono_ret.
do 4!(apply: mono_bind => [|?]; first exact: mono_lift).
do 2!(apply: mono_bind => [|?]; first exact: mono_draw).
do 2!(apply: mono_bind => [|?]; first exact: mono_lift).
do 2!(apply: mono_bind => [|?]; first exact: mono_write_point).
apply: mono_bind => [|u]; first exact: mono_squeeze.
apply: mono_if; first exact: mono_lift.
by apply: mono_bind => [|?]; [exact: mono_lift | exact: IH].
Qed.
Lemma mono_ipa_create p r x : mono (ipa_create_proof E ps p r x).
Proof.
apply: mono_if; first exact: mono_lift.
apply: mono_bind => [|?]; first exact: mono_draws.
apply: mono_bind => [|?]; first exact: mono_lift.
apply: mono_bind => [|?]; first exact: mono_draw.
apply: mono_bind => [|?]; first exact: mono_lift.
apply: mono_bind => [|?]; first exact: mono_write_point.
do 2!(apply: mono_bind => [|?]; first exact: mono_squeeze).
do 2!(apply: mono_bind => [|?]; first exact: mono_lift).
apply: mono_if; first exact: mono_lift.
apply: mono_bind => [|[[|c [|c' l]] f]]; first exact: mono_ipa_rounds.
- exact: mono_lift.
- by apply: mono_bind => [|?]; exact: mono_write_scalar.
exact: mono_lift.
Qed.

(* a challenge squeezed between the writer states s and s' *)
Definition squeezed (s s' : wst) (x : F) : Prop := exists a b,
  w_abs s' = w_abs s ++ a ++ [:: PREFIX_CHALLENGE] ++ b /\
  x = e_uniform E (e_blake E (w_abs s ++ a ++ [:: PREFIX_CHALLENGE])).
Hypothesis ok : env_ok E.
Lemma squeezed_intro s s1 s2 s' x : extends s s1 -> w_squeeze E s1 = Ok (x, s2) -> extends s2 s' ->
  squeezed s s' x.
Proof.
move=> [[a ea] _] h [[b eb] _].
have [x' [s2' [h' ex]]] := squeezeE ok s1; move: h' h; rewrite /w_squeeze /mbind /= /mlift /=.
case: challenge_scalar => //= c [ec es] [ec' es']; exists a, b.
rewrite eb -es' /= ea /absorb_challenge -!catA -ec' ec ex /absorb_challenge ea -!catA; by split.
Qed.
Lemma squeezed_mono s0 s s' s2 x : extends s0 s -> squeezed s s' x -> extends s' s2 -> squeezed s0 s2 x.
Proof.
move=> [[a0 e0] _] [a [b [e1 ->]]] [[b2 e2] _]; exists (a0 ++ a), (b ++ b2).
by rewrite e2 e1 e0 -!catA.
Qed.

(* on the bytes appended between s and s', the reader panics *)
Definition replay_panics A (s s' : wst) (r : R A) : Prop :=
  exists2 bytes, w_out s' = w_out s ++ bytes & forall rest, r (Rst (w_abs s) (bytes ++ rest)) = Panic.
Lemma panics_bind A C s s1 s2 (r : R A) (f : A -> R C) a :
  replays s s1 r a -> replay_panics s1 s2 (f a) -> replay_panics s s2 (mbind r f).
Proof.
move=> [b1 o1 h1] [b2 o2 h2]; exists (b1 ++ b2); first by rewrite o2 o1 catA.
by move=> rest; rewrite -catA (mbindE _ (h1 _)).
Qed.
Lemma panics_now A C s s' (f : A -> R C) : extends s s' -> replay_panics s s' (mbind (mlift Panic) f).
Proof. by move=> [_ [o e]]; exists o. Qed.
Lemma panics_bindl A C s s' (r : R A) (f : A -> R C) : replay_panics s s' r -> replay_panics s s' (mbind r f).
Proof. by move=> [o e h]; exists o => // rest; rewrite /mbind h. Qed.
Lemma panics_map_err A e s s' (r : R A) : replay_panics s s' r -> replay_panics s s' (mmap_err e r).
Proof. by move=> [o eo h]; exists o => // rest; rewrite /mmap_err h. Qed.
Lemma panics_silent A s s' s'' (r : R A) : silent s s' -> replay_panics s' s'' r -> replay_panics s s'' r.
Proof. by move=> [e1 e2] [b hb hr]; exists b; rewrite -?e1 -?e2. Qed.
Lemma panics_extend A s s' s'' (r : R A) : replay_panics s s' r -> extends s' s'' -> replay_panics s s'' r.
Proof. by move=> [b hb hr] [_ [o ho]]; exists (b ++ o); rewrite ?ho ?hb ?catA // => rest; rewrite -catA. Qed.
End T.
