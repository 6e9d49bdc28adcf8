(* Absence of panics: [wp x s Q] says that running x from s gives Ok with Q, or Err EIo (the
   identity point cannot be hashed), and nothing else. *)
Set Warnings "-notation-overridden,-ambiguous-paths".
From mathcomp Require Import all_ssreflect all_algebra.
From Verif Require Import Util M_Multiexp P_Multiexp M_Env M_Transcript L_Transcript.
Import GRing.Theory.
Set Implicit Arguments.
Unset Strict Implicit.
Local Open Scope ring_scope.

Section WP.
Variable S : Type.
Definition wp A (x : M S A) (s : S) (Q : A -> S -> Prop) : Prop :=
  match x s with Ok (a, s') => Q a s' | Err EIo => True | _ => False end.
Lemma wp_bind A C (x : M S A) (f : A -> M S C) s (Q : C -> S -> Prop) :
  wp x s (fun a s' => wp (f a) s' Q) -> wp (mbind x f) s Q.
Proof. by rewrite /wp /mbind; case: (x s) => [[a s']|[]|]. Qed.
Lemma wp_ret A (a : A) s (Q : A -> S -> Prop) : Q a s -> wp (mret a) s Q.
Proof. by []. Qed.
Lemma wp_lift A (r : res A) a s (Q : A -> S -> Prop) : r = Ok a -> Q a s -> wp (mlift r) s Q.
Proof. by move=> ->. Qed.
Lemma wp_unwrap A (o : option A) a s (Q : A -> S -> Prop) : o = Some a -> Q a s -> wp (mlift (unwrap o)) s Q.
Proof. by move=> ->. Qed.
Lemma wp_weaken A (x : M S A) s (Q Q' : A -> S -> Prop) :
  (forall a s', Q a s' -> Q' a s') -> wp x s Q -> wp x s Q'.
Proof. by move=> h; rewrite /wp; case: (x s) => [[a s']|[]|] //; apply: h. Qed.
End WP.

Section T.
Variables (F B : fieldType) (G : lmodType F) (E : env B G).
Hypothesis ok : env_ok E.
Hypothesis nz : forall st, e_uniform E (e_blake E st) != 0.
Lemma wp_draw s (Q : F -> wst -> Prop) : (forall a s', Q a s') -> wp (draw (E := E)) s Q.
Proof. by move=> h; exact: h. Qed.
Lemma wp_write_point p s (Q : unit -> wst -> Prop) : (forall s', Q tt s') -> wp (write_point E p) s Q.
Proof.
by move=> h; rewrite /wp /write_point /mbind /w_common_point; case: absorb_point => st [] //=.
Qed.
Lemma wp_write_scalar p s (Q : unit -> wst -> Prop) : (forall s', Q tt s') -> wp (write_scalar E p) s Q.
Proof. by move=> h; exact: h. Qed.
Lemma wp_squeeze s (Q : F -> wst -> Prop) : (forall x s', x != 0 -> Q x s') -> wp (w_squeeze E) s Q.
Proof.
by move=> h; have [x [s' [e ex]]] := squeezeE ok s; rewrite /wp e; apply: h; rewrite ex.
Qed.
End T.
