(* Rules for wp that also record what a verifier reads back. *)
Set Warnings "-notation-overridden,-ambiguous-paths".
From mathcomp Require Import all_ssreflect all_algebra.
From Verif Require Import Util M_Multiexp P_Multiexp M_Env M_Transcript L_Transcript L_WP.
Import GRing.Theory.
Set Implicit Arguments.
Unset Strict Implicit.
Local Open Scope ring_scope.

Section WPR.
Variables (F B : fieldType) (G : lmodType F) (E : env B G).
Hypothesis ok : env_ok E.

Lemma wp_ok S A (x : M S A) s Q a s' : wp x s Q -> x s = Ok (a, s') -> Q a s'.
Proof. by rewrite /wp => + e; rewrite e. Qed.
Lemma wpr_draw s (Q : F -> wst -> Prop) :
  (forall a s', silent s s' -> Q a s') -> wp (draw (E := E)) s Q.
Proof. by move=> h; apply: h. Qed.
Lemma wpr_write_point p s (Q : unit -> wst -> Prop) :
  (forall s', replays s s' (read_point E) p -> Q tt s') -> wp (write_point E p) s Q.
Proof.
move=> h; rewrite /wp; case e: (write_point E p s) => [[[] s']|er|].
- by have [_ hr] := write_point_replay ok e; exact: h.
- by move: e; rewrite /write_point /mbind /w_common_point; case: absorb_point => st [] //= -[<-].
by move: e; rewrite /write_point /mbind /w_common_point; case: absorb_point => st [].
Qed.
Lemma wpr_common_point p s (Q : unit -> wst -> Prop) :
  (forall s', replays s s' (r_common_point E p) tt -> Q tt s') -> wp (w_common_point E p) s Q.
Proof.
move=> h; rewrite /wp; case e: (w_common_point E p s) => [[[] s']|er|].
- by have [_ hr] := common_point_replay ok e; exact: h.
- by move: e; rewrite /w_common_point; case: absorb_point => st [] //= -[<-].
by move: e; rewrite /w_common_point; case: absorb_point => st [].
Qed.
Lemma wpr_common_scalar p s (Q : unit -> wst -> Prop) :
  (forall s', replays s s' (r_common_scalar E p) tt -> Q tt s') -> wp (w_common_scalar E p) s Q.
Proof.
move=> h; rewrite /wp; case e: (w_common_scalar E p s) => [[[] s']|er|] //.
by apply: h; have := common_scalar_replay e.
Qed.
Lemma wpr_write_scalar p s (Q : unit -> wst -> Prop) :
  (forall s', replays s s' (read_scalar E) p -> Q tt s') -> wp (write_scalar E p) s Q.
Proof.
move=> h; rewrite /wp; case e: (write_scalar E p s) => [[[] s']|er|] //.
exact: h (write_scalar_replay ok e).
Qed.
Lemma wpr_squeeze s (Q : F -> wst -> Prop) :
  (forall x s', replays s s' (r_squeeze E) x ->
     x = e_uniform E (e_blake E (absorb_challenge (w_abs s))) -> Q x s') ->
  wp (w_squeeze E) s Q.
Proof.
move=> h; have [x [s' [e ex]]] := squeezeE ok s; rewrite /wp e; apply: h => //.
exact: squeeze_replay e.
Qed.

(* lists of steps *)
Lemma wpr_draws (A : Type) (l : seq A) s (Q : seq F -> wst -> Prop) :
  (forall rs s', silent s s' -> size rs = size l -> Q rs s') ->
  wp (mmap (fun _ => draw (E := E)) l) s Q.
Proof.
elim: l s Q => [|x l IH] s Q h; first exact: h.
apply: wp_bind; apply: wpr_draw => a s1 h1; apply: wp_bind; apply: IH => rs s2 h2 hs.
by apply: h; [exact: silent_trans h1 h2|rewrite /= hs].
Qed.
Lemma wpr_write_points (D : Type) (l : seq G) (l' : seq D) s (Q : seq unit -> wst -> Prop) :
  size l' = size l ->
  (forall s', replays s s' (mmap (fun _ => read_point E) l') l -> Q (nseq (size l) tt) s') ->
  wp (mmap (write_point E) l) s Q.
Proof.
elim: l l' s Q => [|x l IH] [|y l'] s Q //= => [_ h|[hs] h]; first by apply: h; exact: replays_ret.
apply: wp_bind; apply: wpr_write_point => s1 h1; apply: wp_bind; apply: (IH l' _ _ hs) => s2 h2.
by apply: wp_ret; apply: h; apply: replays_bind h1 _; apply: replays_bind h2 _; exact: replays_ret.
Qed.
Lemma wpr_write_scalars (D : Type) (l : seq F) (l' : seq D) s (Q : seq unit -> wst -> Prop) :
  size l' = size l ->
  (forall s', replays s s' (mmap (fun _ => read_scalar E) l') l -> Q (nseq (size l) tt) s') ->
  wp (mmap (write_scalar E) l) s Q.
Proof.
elim: l l' s Q => [|x l IH] [|y l'] s Q //= => [_ h|[hs] h]; first by apply: h; exact: replays_ret.
apply: wp_bind; apply: wpr_write_scalar => s1 h1; apply: wp_bind; apply: (IH l' _ _ hs) => s2 h2.
by apply: wp_ret; apply: h; apply: replays_bind h1 _; apply: replays_bind h2 _; exact: replays_ret.
Qed.
End WPR.
