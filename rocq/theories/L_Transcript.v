(* Reasoning about prover runs and the verifier runs that replay them. *)
Set Warnings "-notation-overridden,-ambiguous-paths".
From mathcomp Require Import all_ssreflect all_algebra.
From Verif Require Import Util M_Multiexp P_Multiexp M_Env M_Transcript.
Import GRing.Theory.
Set Implicit Arguments.
Unset Strict Implicit.
Local Open Scope ring_scope.

Section Monad.
Variable S : Type.
Lemma mbind_inv A C (x : M S A) (f : A -> M S C) (s : S) c s' : mbind x f s = Ok (c, s') ->
  exists a s1, x s = Ok (a, s1) /\ f a s1 = Ok (c, s').
Proof. by rewrite /mbind; case: (x s) => [[a s1]||] //= h; exists a, s1. Qed.
Lemma mbindE A C (x : M S A) (f : A -> M S C) s a s1 : x s = Ok (a, s1) -> mbind x f s = f a s1.
Proof. by rewrite /mbind => ->. Qed.
Lemma mlift_inv A (r : res A) (s : S) a s' : mlift r s = Ok (a, s') -> r = Ok a /\ s' = s.
Proof. by rewrite /mlift; case: r => //= b [<- <-]. Qed.
Lemma unwrap_inv A (o : option A) a : unwrap o = Ok a -> o = Some a.
Proof. by case: o => //= b [<-]. Qed.
Lemma mlift_unwrap A (o : option A) (s : S) a s' :
  mlift (unwrap o) s = Ok (a, s') -> o = Some a /\ s' = s.
Proof. by move=> h; have [e ->] := mlift_inv h; split=> //; exact: unwrap_inv e. Qed.
Lemma mret_inv A (a b : A) (s s' : S) : mret a s = Ok (b, s') -> b = a /\ s' = s.
Proof. by case=> -> ->. Qed.
Lemma mbindu A C (o : option A) (f : A -> M S C) (s : S) c s' :
  mbind (mlift (unwrap o)) f s = Ok (c, s') -> exists2 a, o = Some a & f a s = Ok (c, s').
Proof. by case: o => [a|] //= h; exists a. Qed.
Lemma mlift_ok A (a : A) (s : S) : mlift (Ok a) s = Ok (a, s).
Proof. by []. Qed.
Lemma mlift_some A (o : option A) a (s : S) : o = Some a -> mlift (unwrap o) s = Ok (a, s).
Proof. by move=> ->. Qed.
End Monad.

Section T.
Variables (F B : fieldType) (G : lmodType F) (E : env B G).
Hypothesis ok : env_ok E.

(* [replays s s' r a]: between the writer states s and s' the prover appended bytes on which
   the reader program r returns a, moving from the hash state of s to that of s'. *)
Definition replays A (s s' : wst) (r : R A) (a : A) : Prop :=
  exists2 bytes, w_out s' = w_out s ++ bytes &
  forall rest, r (Rst (w_abs s) (bytes ++ rest)) = Ok (a, Rst (w_abs s') rest).
(* no interaction (the RNG may have advanced) *)
Definition silent (s s' : wst) : Prop := w_abs s' = w_abs s /\ w_out s' = w_out s.

Lemma silent_refl s : silent s s. Proof. by []. Qed.
Lemma silent_trans s1 s2 s3 : silent s1 s2 -> silent s2 s3 -> silent s1 s3.
Proof. by move=> [a b] [c d]; split; rewrite ?c ?d. Qed.

Lemma replays_ret A s (a : A) : replays s s (mret a) a.
Proof. by exists [::]; rewrite ?cats0. Qed.
Lemma replays_silent A s s' s'' (r : R A) a : silent s s' -> replays s' s'' r a -> replays s s'' r a.
Proof. by move=> [e1 e2] [b hb hr]; exists b; rewrite -?e1 -?e2. Qed.
Lemma replays_silentr A s s' s'' (r : R A) a : silent s' s'' -> replays s s' r a -> replays s s'' r a.
Proof. by move=> [e1 e2] [b hb hr]; exists b; rewrite ?e1 ?e2. Qed.
Lemma replays_bind A C s s1 s2 (r : R A) (f : A -> R C) a c :
  replays s s1 r a -> replays s1 s2 (f a) c -> replays s s2 (mbind r f) c.
Proof.
move=> [b1 o1 h1] [b2 o2 h2]; exists (b1 ++ b2); first by rewrite o2 o1 catA.
by move=> rest; rewrite -catA (mbindE _ (h1 _)).
Qed.
Lemma replays_lift A s (r : res A) a : r = Ok a -> replays s s (mlift r) a.
Proof. by move=> ->; exists [::]; rewrite ?cats0. Qed.
Lemma replays_map_err A s s' e (r : R A) a : replays s s' r a -> replays s s' (mmap_err e r) a.
Proof. by move=> [b o h]; exists b => // rest; rewrite /mmap_err h. Qed.

Lemma repr_size32 x : size (e_repr E x) = 32%N.
Proof. by case: (ok_le_repr ok x). Qed.

Lemma common_point_inv p s a s' : w_common_point E p s = Ok (a, s') ->
  [/\ p != 0, w_out s' = w_out s, w_rng s' = w_rng s &
      forall inp, r_common_point E p (Rst (w_abs s) inp) = Ok (tt, Rst (w_abs s') inp)].
Proof.
rewrite /w_common_point /r_common_point -(ok_coords0 ok) /absorb_point.
by case: e_coords => [[x y]|] //= [_ <-].
Qed.
Lemma common_point_replay p s a s' : w_common_point E p s = Ok (a, s') ->
  p != 0 /\ replays s s' (r_common_point E p) tt.
Proof.
move=> /common_point_inv [h0 ho _ hr]; split=> //; exists [::]; rewrite ?cats0 //.
Qed.
Lemma common_scalar_replay x s a s' : w_common_scalar E x s = Ok (a, s') ->
  replays s s' (r_common_scalar E x) tt.
Proof. by case=> _ <-; exists [::]; rewrite ?cats0. Qed.

Lemma write_point_replay p s a s' : write_point E p s = Ok (a, s') ->
  p != 0 /\ replays s s' (read_point E) p.
Proof.
move=> h; have [[] [s1 [/common_point_inv [h0 ho _ hr] [_ <-]]]] := mbind_inv h; split=> //.
exists (e_to_bytes E p) => /=; first by rewrite ho.
move=> rest; rewrite /read_point /mbind /r_get /= size_cat (ok_bytes_size ok) leq_addr /=.
rewrite take_size_cat ?(ok_bytes_size ok) // drop_size_cat ?(ok_bytes_size ok) //.
by rewrite /mlift (ok_bytes ok) /= hr.
Qed.
Lemma write_scalar_replay x s a s' : write_scalar E x s = Ok (a, s') ->
  replays s s' (read_scalar E) x.
Proof.
move=> [_ <-]; exists (e_repr E x) => //= rest.
rewrite /read_scalar /mbind /r_get /= size_cat repr_size32 leq_addr /=.
by rewrite take_size_cat ?repr_size32 // drop_size_cat ?repr_size32 // /mlift (ok_repr ok).
Qed.
Lemma squeeze_replay s x s' : w_squeeze E s = Ok (x, s') -> replays s s' (r_squeeze E) x.
Proof.
move=> h0; have [c [s1 [[<- <-] h1]]] := mbind_inv h0; have [h ->] := mlift_inv h1.
exists [::]; rewrite ?cats0 // => rest; rewrite /r_squeeze /mbind /= /mlift h.
by [].
Qed.
(* the squeezed scalar, and squeezing never fails *)
Lemma squeezeE s : exists x s', w_squeeze E s = Ok (x, s') /\ x = e_uniform E (e_blake E (absorb_challenge (w_abs s))).
Proof.
rewrite /w_squeeze /mbind /= /mlift /challenge_scalar /challenge_bytes (ok_repr ok) /=.
by eexists; eexists.
Qed.
Lemma squeeze_encoded_replay s x s' : w_squeeze E s = Ok (x, s') ->
  exists2 packed, replays s s' (r_squeeze_encoded E) packed & challenge_scalar E packed = Ok x.
Proof.
move=> h0; have [c [s1 [[<- <-] h1]]] := mbind_inv h0; have [h ->] := mlift_inv h1.
by exists (challenge_bytes E (absorb_challenge (w_abs s))) => //; exists [::]; rewrite ?cats0.
Qed.
Lemma draw_silent s x s' : draw (E := E) s = Ok (x, s') -> silent s s'.
Proof. by case=> _ <-. Qed.
End T.

(* inversion tactics for runs *)
Ltac ubind h a := let H := fresh "H" in let h' := fresh "h" in
  destruct (mbindu h) as [a H h']; clear h; rename h' into h; revert H.
Ltac sbind h a s := let H := fresh "H" in let h' := fresh "h" in
  destruct (mbind_inv h) as [a [s [H h']]]; clear h; rename h' into h; revert H.
