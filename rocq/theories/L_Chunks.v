(* chunks of mapped and of consecutive lists; mapi as a map over indices *)
Set Warnings "-notation-overridden,-ambiguous-paths".
From mathcomp Require Import all_ssreflect.
From Verif Require Import Util.
Set Implicit Arguments.
Unset Strict Implicit.

Lemma mapi_fromE (A C : Type) (d : A) (f : nat -> A -> C) b s :
  mapi_from b f s = [seq f (b + i) (nth d s i) | i <- iota 0 (size s)].
Proof.
elim: s b => //= x s IH b; rewrite IH addn0; congr cons.
rewrite -[1]addn0 iotaDl -map_comp; apply: eq_map => i /=; by rewrite addnS addSn.
Qed.
Lemma mapiE (A C : Type) (d : A) (f : nat -> A -> C) s :
  mapi f s = [seq f i (nth d s i) | i <- iota 0 (size s)].
Proof. exact: mapi_fromE. Qed.

Lemma size_chunks_map (A C : Type) (f : A -> C) c s : chunks c (map f s) = map (map f) (chunks c s).
Proof.
rewrite /chunks size_map; move: (size s) => n; elim: n s => //= n IH s.
case: s => //= x s; rewrite -[f x :: map f s]/(map f (x :: s)) -map_take -map_drop IH //.
Qed.

Section Iota.
Variables (c m : nat).
Hypothesis c0 : 0 < c.
Definition ch (t : nat) : seq nat := nth [::] (chunks c (iota 0 m)) t.
Definition nch : nat := size (chunks c (iota 0 m)).

Lemma chunks_iota_nth a k t : t < size (chunks c (iota a k)) ->
  exists2 len, nth [::] (chunks c (iota a k)) t = iota (a + t * c) len & 0 < len <= c.
Proof.
elim: t a k => [|t IH] a k.
all: case: (posnP k) => [->//|k0]; rewrite chunksE ?size_iota //=.
  move=> _; rewrite take_iota addn0; exists (minn c k) => //.
  by rewrite leq_min c0 k0 geq_minl.
rewrite ltnS drop_iota => /IH [len -> h]; exists len => //; congr iota.
by rewrite mulSn addnA.
Qed.
Lemma chE t : t < nch -> exists2 len, ch t = iota (t * c) len & 0 < len <= c.
Proof. exact: chunks_iota_nth. Qed.
Lemma chunks_iota_full a k t : t.+1 < size (chunks c (iota a k)) ->
  size (nth [::] (chunks c (iota a k)) t) = c.
Proof.
elim: t a k => [|t IH] a k.
all: case: (posnP k) => [->//|k0]; rewrite chunksE ?size_iota //= ltnS drop_iota.
  rewrite take_iota size_iota => h; apply/minn_idPl; rewrite leqNgt; apply/negP => /ltnW hk.
  by move: h; move/eqP: hk => ->.
exact: IH.
Qed.
Lemma ch_full t : t.+1 < nch -> size (ch t) = c.
Proof. exact: chunks_iota_full. Qed.
Lemma flatten_ch : flatten [seq ch t | t <- iota 0 nch] = iota 0 m.
Proof.
have -> : [seq ch t | t <- iota 0 nch] = chunks c (iota 0 m).
  apply: (@eq_from_nth _ [::]); rewrite ?size_map ?size_iota // => i hi.
  by rewrite (nth_map 0) ?size_iota // nth_iota.
exact: flatten_chunks.
Qed.
Lemma mem_ch t j : t < nch -> j \in ch t -> j < m.
Proof.
move=> ht hj; have : j \in flatten [seq ch t | t <- iota 0 nch].
  by apply/flattenP; exists (ch t) => //; apply: map_f; rewrite mem_iota add0n.
by rewrite flatten_ch mem_iota.
Qed.
Lemma nch_gt0 : (0 < nch) = (0 < m).
Proof.
case: (posnP m) => [e|m0]; first by rewrite /nch e.
by rewrite /nch chunksE ?size_iota.
Qed.
Lemma nth_chunks (A : Type) (d : A) (s : seq A) t : size s = m -> t < nch ->
  nth [::] (chunks c s) t = [seq nth d s j | j <- ch t].
Proof.
move=> hs ht; have e : s = [seq nth d s j | j <- iota 0 m].
  by rewrite -hs; exact/esym/mkseq_nth.
by rewrite [in LHS]e size_chunks_map (nth_map [::]).
Qed.
Lemma size_chunks (A : Type) (s : seq A) : size s = m -> size (chunks c s) = nch.
Proof.
case: s => [/= e0|d s hs]; first by rewrite /nch -e0.
have e : d :: s = [seq nth d (d :: s) j | j <- iota 0 m] by rewrite -hs -[RHS]/(mkseq _ _) mkseq_nth.
by rewrite [in LHS]e size_chunks_map size_map.
Qed.
End Iota.
