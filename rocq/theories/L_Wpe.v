(* As wp, with a set of allowed errors: [wpe A x s Q] says that running x from s gives Ok with
   Q, or Err e with A e, and never panics.  Rules for mapping a step over a list while a
   verifier reads back what each step wrote. *)
Set Warnings "-notation-overridden,-ambiguous-paths".
From mathcomp Require Import all_ssreflect all_algebra.
From Verif Require Import Util M_Assigned M_Poly M_Domain M_Env M_Transcript M_Commit M_Multiopen M_Circuit M_Selectors M_Keys M_Permutation
  M_Plonk L_Transcript L_WP L_WPR.
Import GRing.Theory.
Set Implicit Arguments.
Unset Strict Implicit.
Local Open Scope ring_scope.

Section Wpe.
Variables (S : Type) (A : error -> Prop).
Definition wpe C (x : M S C) (s : S) (Q : C -> S -> Prop) : Prop :=
  match x s with Ok (a, s') => Q a s' | Err e => A e | Panic => False end.
Lemma wpe_bind C D (x : M S C) (f : C -> M S D) s (Q : D -> S -> Prop) :
  wpe x s (fun a s' => wpe (f a) s' Q) -> wpe (mbind x f) s Q.
Proof. by rewrite /wpe /mbind; case: (x s) => [[a s']|e|]. Qed.
Lemma wpe_ret C (a : C) s (Q : C -> S -> Prop) : Q a s -> wpe (mret a) s Q.
Proof. by []. Qed.
Lemma wpe_lift C (r : res C) a s (Q : C -> S -> Prop) : r = Ok a -> Q a s -> wpe (mlift r) s Q.
Proof. by move=> ->. Qed.
Lemma wpe_unwrap C (o : option C) a s (Q : C -> S -> Prop) : o = Some a -> Q a s -> wpe (mlift (unwrap o)) s Q.
Proof. by move=> ->. Qed.
Lemma wpe_weaken C (x : M S C) s (Q Q' : C -> S -> Prop) :
  (forall a s', Q a s' -> Q' a s') -> wpe x s Q -> wpe x s Q'.
Proof. by move=> h; rewrite /wpe; case: (x s) => [[a s']|e|] //; apply: h. Qed.
Lemma wpe_wp C (x : M S C) s (Q : C -> S -> Prop) : A EIo -> wp x s Q -> wpe x s Q.
Proof. by rewrite /wp /wpe; case: (x s) => [[a s']|[]|]. Qed.
Lemma wpe_ok C (x : M S C) s (Q : C -> S -> Prop) a s' : wpe x s Q -> x s = Ok (a, s') -> Q a s'.
Proof. by rewrite /wpe => + e; rewrite e. Qed.
End Wpe.
Lemma wpe_io S C (x : M S C) s (Q : C -> S -> Prop) : wpe (fun e => e = EIo) x s Q -> wp x s Q.
Proof. by rewrite /wpe /wp; case: (x s) => [[a s']|e|] // ->. Qed.

Section Lists.
Variables (F B : fieldType) (G : lmodType F) (E : env B G).
Variable A : error -> Prop.

(* each step writes what the corresponding reader reads *)
Lemma wpe_mmap (T C D H : Type) (t0 : T) (c0 : C) (d0 : D) (h0 : H) (f : T -> W C) (g : D -> R H) (l : seq T) (l' : seq D)
    (Inv : nat -> C -> H -> Prop) s :
  size l' = size l ->
  (forall i s, (i < size l)%N -> wpe A (f (nth t0 l i)) s (fun c s' =>
     exists2 h, replays s s' (g (nth d0 l' i)) h & Inv i c h)) ->
  wpe A (mmap f l) s (fun cs s' => size cs = size l /\
    exists2 hs, replays s s' (mmap g l') hs & size hs = size l /\
      forall i, (i < size l)%N -> Inv i (nth c0 cs i) (nth h0 hs i)).
Proof.
elim: l l' Inv s => [|t l IH] [|d l'] Inv s //=.
  by move=> _ _; split=> //; exists [::]; [exact: replays_ret|].
move=> [hs] h; apply: wpe_bind; have := h 0%N s isT; apply: wpe_weaken => c s1 /= [x rx ix].
apply: wpe_bind; apply: wpe_weaken (IH l' (fun i => Inv i.+1) s1 hs (fun i s => h i.+1 s)) => cs s2.
move=> [e [xs rxs [exs hi]]]; apply: wpe_ret; split; first by rewrite /= e.
exists (x :: xs); first by apply: replays_bind rx _; apply: replays_bind rxs _; exact: replays_ret.
by split; [rewrite /= exs|case=> [|i] //; apply: hi].
Qed.

(* the same with an accumulator; Inv i c h p must survive later steps, which relate the
   accumulators by ext *)
Lemma wpe_mmap_acc (T C D H P : Type) (t0 : T) (c0 : C) (d0 : D) (h0 : H) (f : T -> P -> W (C * P)) (g : D -> R H)
    (l : seq T) (l' : seq D) (ext : P -> P -> Prop) (Inv : nat -> C -> H -> P -> Prop) p s :
  (forall p, ext p p) -> (forall p q r, ext p q -> ext q r -> ext p r) ->
  (forall i c h p q, ext p q -> Inv i c h p -> Inv i c h q) ->
  size l' = size l ->
  (forall i p0 s, (i < size l)%N -> ext p p0 -> wpe A (f (nth t0 l i) p0) s (fun r s' => ext p0 r.2 /\
     exists2 h, replays s s' (g (nth d0 l' i)) h & Inv i r.1 h r.2)) ->
  wpe A (mmap_acc f l p) s (fun r s' => [/\ size r.1 = size l, ext p r.2 &
    exists2 hs, replays s s' (mmap g l') hs & size hs = size l /\
      forall i, (i < size l)%N -> Inv i (nth c0 r.1 i) (nth h0 hs i) r.2]).
Proof.
move=> er et; elim: l l' Inv p s => [|t l IH] [|d l'] Inv p s //= mono.
  by move=> _ _; split=> //; exists [::]; [exact: replays_ret|].
move=> [hs] h; apply: wpe_bind; have := h 0%N p s isT (er p); apply: wpe_weaken => -[c p1] s1 /= [e1 [x rx ix]].
apply: wpe_bind.
have h' i p0 s0 : (i < size l)%N -> ext p1 p0 -> wpe A (f (nth t0 l i) p0) s0 (fun r s' => ext p0 r.2 /\
     exists2 h, replays s0 s' (g (nth d0 l' i)) h & Inv i.+1 r.1 h r.2).
  by move=> hi e0; apply: (h i.+1 p0 s0 hi (et _ _ _ e1 e0)).
apply: wpe_weaken (IH l' (fun i => Inv i.+1) p1 s1 (fun i => mono i.+1) hs h') => -[cs p2] s2 /=.
move=> [e e2 [xs rxs [exs hi]]]; apply: wpe_ret; split; [by rewrite /= e|exact: et e1 e2|].
exists (x :: xs); first by apply: replays_bind rx _; apply: replays_bind rxs _; exact: replays_ret.
by split; [rewrite /= exs|case=> [|i] /= hl; [exact: mono e2 ix|exact: hi]].
Qed.
End Lists.

(* lists given by their elements *)
Lemma seq_mkseq (T : Type) (x0 : T) (s : seq T) : s = mkseq (nth x0 s) (size s).
Proof. by rewrite mkseq_nth. Qed.
Lemma zip_mkseq (T U : Type) (f : nat -> T) (g : nat -> U) n : zip (mkseq f n) (mkseq g n) = mkseq (fun i => (f i, g i)) n.
Proof. by rewrite /mkseq; elim: (iota 0 n) => //= x l ->. Qed.
Lemma map_mkseq (T U : Type) (h : T -> U) (f : nat -> T) n : [seq h x | x <- mkseq f n] = mkseq (fun i => h (f i)) n.
Proof. by rewrite /mkseq -map_comp. Qed.
Lemma sequence_mkseq (T : Type) (f : nat -> option T) (g : nat -> T) n :
  (forall i, (i < n)%N -> f i = Some (g i)) -> sequence (mkseq f n) = Some (mkseq g n).
Proof.
move=> h; rewrite /mkseq; have : forall i, i \in iota 0 n -> f i = Some (g i).
  by move=> i; rewrite mem_iota => /andP [_ hi]; exact: h.
elim: (iota 0 n) => //= x l IH hx; rewrite hx ?mem_head // IH // => i hi; apply: hx.
by rewrite in_cons hi orbT.
Qed.
Lemma fin_choice (T : Type) (x0 : T) (Q : nat -> T -> Prop) n :
  (forall i, (i < n)%N -> exists p, Q i p) -> exists f, forall i, (i < n)%N -> Q i (f i).
Proof.
elim: n => [|n IH] h; first by exists (fun _ => x0).
have [|f hf] := IH; first by move=> i hi; apply: h; exact: ltnW.
have [p hp] := h n (leqnn _); exists (fun i => if i == n then p else f i) => i.
rewrite ltnS leq_eqVlt; case: eqP => [->|_] //=; exact: hf.
Qed.
