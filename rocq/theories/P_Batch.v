(* C41: batch verification agrees with individual verification. *)
Set Warnings "-notation-overridden,-ambiguous-paths".
From mathcomp Require Import all_ssreflect all_algebra.
From Verif Require Import Util M_Env M_Transcript L_Transcript L_WP M_Commit S_Commit L_Commit P_Commit M_IPA L_IPA.
From Verif Require Import M_Multiopen M_Keys M_Plonk M_Batch L_Valid M_Keygen Ex_Field Ex_Env Ex_Plonk.
Import GRing.Theory.
Set Implicit Arguments.
Unset Strict Implicit.
Local Open Scope ring_scope.

(* the schedules of the two implementations combine exactly the batch's items, in order *)
Lemma items_foldl s l : items (foldl SFold s l) = items s ++ l.
Proof. by elim: l s => [|i l IH] s /=; rewrite ?cats0 // IH /= cat_rcons. Qed.
Theorem C41_sequential_items n : items (sequential n) = iota 0 n.
Proof. by rewrite /sequential items_foldl. Qed.
Theorem C41_rayon_items t : items (rayon 0 t) = iota 0 (split_size t).
Proof.
have key start : items (rayon start t) = iota start (split_size t); last exact: key.
elim: t start => [k|a IHa b IHb] start /=; first by rewrite items_foldl.
by rewrite IHa IHb iotaD.
Qed.

(* ---------------------------------------------------------------- *)
Section Agree.
Variables (F B : fieldType) (G : lmodType F) (E : env B G) (ps : params G).
Hypothesis ok : env_ok E.
Hypothesis pok : params_ok E ps.
Hypothesis k0 : (0 < p_k ps)%N.
Let pn0 : (0 < p_n ps)%N. Proof. by rewrite (ps_n pok) expn_gt0. Qed.
Let psz : size (p_g ps) = p_n ps. Proof. by rewrite (ps_g pok) (ps_n pok). Qed.
Variable vk : vkey G.

(* The verdict on one proof, verified on its own *)
Definition single (it : batch_item F) : res unit :=
  rbind (verify_proof E ps vk it.1 (Rst [::] it.2)) (fun q => Ok q.1).

(* a proof is accepted, rejected with the constraint-system error by its MSM, or rejected
   while its bytes are read *)
Lemma single_msm it : match item_msm E ps vk it with
  | Ok m => mvalid E ps m /\ single it = (if mval E ps m == 0 then Ok tt else Err EConstraintSystemFailure)
  | Err e => single it = Err e
  | Panic => single it = Panic
  end.
Proof.
rewrite /item_msm /single /verify_proof_msm /verify_proof /mbind.
case e1: (verify_proof_trace E ps vk it.1 _) => [[t s1]|e|] //=.
have hq := trace_valid ok e1; rewrite /mmap_err.
case e2: (mo_verify_proof E ps _ _ s1) => [[gd s2]|e|] //=.
have [/mvbP hv hs] := mo_valid ok pok hq (new_valid E ps) e2.
have [m' em [vm _]] := use_challengesE pok hv hs k0.
by rewrite /mlift em /= (msm_evalE ok psz vm) /=; split=> //; case: ifP.
Qed.

(* the group element the schedule accumulates, from the items' group elements *)
Fixpoint combined (v : nat -> G) (s : sched) : tape F s -> G :=
  match s return tape F s -> G with
  | SIdentity => fun _ => 0
  | SFold s i => fun t => t.1 *: combined v t.2 + v i
  | SReduce s s' => fun t => t.1 *: combined v t.2.1 + combined v t.2.2
  end.

Section Run.
Variable results : seq (res (msm F B)).
Definition value_of (i : nat) : G := if nth Panic results i is Ok m then mval E ps m else 0.
Hypothesis valid : forall i m, nth Panic results i = Ok m -> mvalid E ps m.

Lemma accumulateE acc m r : mvalid E ps acc -> mvalid E ps m ->
  exists2 m', accumulate_msm ps acc m r = Ok m' & mvalid E ps m' /\ mval E ps m' = r *: mval E ps acc + mval E ps m.
Proof.
move=> ha hm; have [v1 e1] := msm_scaleE r ha; have [m' e [v2 e2]] := add_msmE ok psz v1 hm.
by exists m'; rewrite /accumulate_msm ?e //; split=> //; rewrite e2 e1.
Qed.

Lemma run_ok (s : sched) (t : tape F s) :
  (forall i, i \in items s -> exists m, nth Panic results i = Ok m) ->
  exists2 m, run_sched ps results t = Ok m & mvalid E ps m /\ mval E ps m = combined value_of t.
Proof.
elim: s t => [|s IH i|s IH s' IH'] t h /=.
- by exists msm_new => //; have [] := msm_newE E ps.
- have [|acc -> [va ea]] := IH t.2.
    by move=> j hj; apply: h; rewrite mem_rcons inE hj orbT.
  have [|m em] := h i; first by rewrite mem_rcons inE eqxx.
  rewrite em /=; have [m' -> [v' e']] := accumulateE t.1 va (valid em).
  by exists m' => //; split=> //; rewrite e' ea /value_of em.
- have [|a -> [va ea]] := IH t.2.1; first by move=> j hj; apply: h; rewrite mem_cat hj.
  have [|b -> [vb eb]] := IH' t.2.2; first by move=> j hj; apply: h; rewrite mem_cat hj orbT.
  rewrite /=; have [m' -> [v' e']] := accumulateE t.1 va vb.
  by exists m' => //; split=> //; rewrite e' ea eb.
Qed.
Lemma run_err (s : sched) (t : tape F s) :
  (forall i, i \in items s -> nth Panic results i <> Panic) ->
  (exists i e, i \in items s /\ nth Panic results i = Err e) ->
  exists e, run_sched ps results t = Err e.
Proof.
have dec (s0 : sched) : (forall i, i \in items s0 -> nth Panic results i <> Panic) ->
    (exists i e, i \in items s0 /\ nth Panic results i = Err e) \/
    (forall i, i \in items s0 -> exists m, nth Panic results i = Ok m).
  elim: (items s0) => [|i l IH] h; first by right.
  case: IH => [j hj|[j [e [hj ej]]]|hl]; first by apply: h; rewrite inE hj orbT.
    by left; exists j, e; rewrite inE hj orbT.
  case ei: (nth Panic results i) => [m|e|].
  - by right=> j; rewrite inE => /orP[/eqP ->|/hl //]; exists m.
  - by left; exists i, e; rewrite inE eqxx.
  - by case: (h i); rewrite ?inE ?eqxx.
elim: s t => [|s IH i|s IH s' IH'] t hp /=.
- by case=> i [e []].
- have hp' j : j \in items s -> nth Panic results j <> Panic by move=> hj; apply: hp; rewrite mem_rcons inE hj orbT.
  case: (dec _ hp') => [hs|hs] hex; first by have [e ->] := IH t.2 hp' hs; exists e.
  have [acc -> _] := run_ok t.2 hs; case: hex => j [e [hj ej]].
  move: hj; rewrite mem_rcons inE => /orP[/eqP <-|hj]; first by rewrite /= ej; exists e.
  by have [m] := hs _ hj; rewrite ej.
- have hp1 j : j \in items s -> nth Panic results j <> Panic by move=> hj; apply: hp; rewrite mem_cat hj.
  have hp2 j : j \in items s' -> nth Panic results j <> Panic by move=> hj; apply: hp; rewrite mem_cat hj orbT.
  case: (dec _ hp1) => [hs|hs] hex; first by have [e ->] := IH t.2.1 hp1 hs; exists e.
  have [acc -> _] := run_ok t.2.1 hs; case: hex => j [e [hj ej]].
  move: hj; rewrite mem_cat => /orP[hj|hj]; first by have [m] := hs _ hj; rewrite ej.
  have [|e' ->] := IH' t.2.2 hp2; first by exists j, e.
  by exists e'.
Qed.
End Run.

Let results (batch : seq (batch_item F)) := [seq item_msm E ps vk it | it <- batch].
Let res_nth batch i it : nth Panic (results batch) i = if (i < size batch)%N then item_msm E ps vk (nth it batch i) else Panic.
Proof. by case: ltnP => h; [rewrite (nth_map it) | rewrite nth_default ?size_map]. Qed.
Let res_valid batch i m : nth Panic (results batch) i = Ok m -> mvalid E ps m.
Proof.
rewrite (res_nth _ _ ([::], [::])); case: ifP => // _ e.
by have := single_msm (nth ([::], [::]) batch i); rewrite e => -[].
Qed.

(* If every proof of the batch verifies on its own, the batch verifies: for every schedule
   and all random scalars. *)
Theorem C41_all_valid : forall (batch : seq (batch_item F)) (s : sched) (t : tape F s),
  items s = iota 0 (size batch) ->
  (forall it, it \in batch -> single it = Ok tt) -> finalize E ps vk batch t = Ok true.
Proof.
move=> batch s t hi hall; rewrite /finalize -/(results batch).
have hok i : i \in items s -> exists m, nth Panic (results batch) i = Ok m /\ mval E ps m = 0.
  rewrite hi mem_iota add0n => /andP[_ hlt]; rewrite (res_nth _ _ ([::], [::])) hlt.
  have hin := mem_nth ([::], [::]) hlt; have := single_msm (nth ([::], [::]) batch i); rewrite (hall _ hin).
  by case: (item_msm _ _ _ _) => // m [_]; case: eqP => // e _; exists m.
have [|m -> [vm em]] := run_ok (@res_valid batch) t; first by move=> i /hok[m [e _]]; exists m.
rewrite (msm_evalE ok psz vm) /= em; congr Ok; apply/eqP.
have : forall i, i \in items s -> value_of (results batch) i = 0 by move=> i /hok[m' [e e']]; rewrite /value_of e.
clear; elim: s t => [|s IH i|s IH s' IH'] t h //=.
  rewrite IH ?scaler0 ?add0r => [|j hj]; first by apply: h; rewrite mem_rcons inE eqxx.
  by apply: h; rewrite mem_rcons inE hj orbT.
by rewrite IH ?IH' ?scaler0 ?add0r // => j hj; apply: h; rewrite mem_cat hj ?orbT.
Qed.

(* If some proof is rejected while its bytes are read (anything but the final MSM check) the
   batch is rejected, whatever the scalars. *)
Theorem C41_unreadable : forall (batch : seq (batch_item F)) (s : sched) (t : tape F s),
  items s = iota 0 (size batch) ->
  (forall it, it \in batch -> single it <> Panic) ->
  (exists it e, it \in batch /\ item_msm E ps vk it = Err e) -> finalize E ps vk batch t = Ok false.
Proof.
move=> batch s t hi hnp [it [e [hit he]]]; rewrite /finalize -/(results batch).
have [||e' -> //] := @run_err (results batch) (@res_valid batch) s t.
  move=> i; rewrite hi mem_iota add0n => /andP[_ hlt]; rewrite (res_nth _ _ it) hlt => hp.
  have := single_msm (nth it batch i); rewrite hp => hs; exact: hnp (mem_nth it hlt) hs.
exists (index it batch), e; rewrite hi mem_iota add0n index_mem hit; split=> //.
by rewrite (res_nth _ _ it) index_mem hit nth_index.
Qed.

(* Otherwise the decision is exactly whether the combination of the proofs' MSMs is zero *)
Lemma finalizeE batch (s : sched) (t : tape F s) : items s = iota 0 (size batch) ->
  (forall it, it \in batch -> exists m, item_msm E ps vk it = Ok m) ->
  finalize E ps vk batch t = Ok (combined (value_of (results batch)) t == 0).
Proof.
move=> hi h; rewrite /finalize -/(results batch).
have [|m -> [vm em]] := run_ok (@res_valid batch) t; last by rewrite (msm_evalE ok psz vm) em.
move=> i; rewrite hi mem_iota add0n => /andP[_ hlt]; rewrite (res_nth _ _ ([::], [::])) hlt.
by apply: h; apply: mem_nth.
Qed.
Lemma value_nz batch it : it \in batch -> single it <> Ok tt -> (exists m, item_msm E ps vk it = Ok m) ->
  exists2 i, (i < size batch)%N & value_of (results batch) i != 0.
Proof.
move=> hit hs [m em]; exists (index it batch); first by rewrite index_mem.
rewrite /value_of (res_nth _ _ it) index_mem hit nth_index // em.
by have := single_msm it; rewrite em => -[_]; case: eqP.
Qed.
End Agree.

(* ---------------------------------------------------------------- counting the scalars *)
Section Count.
Variables (F : finFieldType) (G : lmodType F).
Notation q := #|F|.

(* the number of accumulation steps, and all choices of their scalars *)
Fixpoint steps (s : sched) : nat :=
  match s with SIdentity => 0 | SFold s _ => (steps s).+1 | SReduce s s' => (steps s + steps s').+1 end.
Fixpoint all_tapes (s : sched) : seq (tape F s) :=
  match s return seq (tape F s) with
  | SIdentity => [:: tt]
  | SFold s _ => [seq (r, t) | r <- enum F, t <- all_tapes s]
  | SReduce s s' => [seq (r, t) | r <- enum F, t <- [seq (t, t') | t <- all_tapes s, t' <- all_tapes s']]
  end.

Lemma In_pairs (A C : Type) (l : seq A) (m : seq C) a c :
  List.In (a, c) [seq (x, y) | x <- l, y <- m] <-> List.In a l /\ List.In c m.
Proof.
elim: l => [|x l IH] /=; first by split=> // -[].
rewrite List.in_app_iff IH List.in_map_iff; split.
  by case=> [[y [[<- <-] hy]]|[h1 h2]]; auto.
by case=> -[->|h1] h2; [left; exists c|right].
Qed.
Lemma NoDup_app' (A : Type) (l m : seq A) : List.NoDup l -> List.NoDup m ->
  (forall x, List.In x l -> List.In x m -> False) -> List.NoDup (l ++ m).
Proof.
elim: l => [|x l IH] //= /List.NoDup_cons_iff[hx hl] hm h; constructor; last by apply: IH => // y hy; apply: h; right.
by rewrite List.in_app_iff => -[//|]; apply: h; left.
Qed.
Lemma NoDup_pairs (A C : Type) (l : seq A) (m : seq C) :
  List.NoDup l -> List.NoDup m -> List.NoDup [seq (x, y) | x <- l, y <- m].
Proof.
move=> + hm; elim: l => [|x l IH] hl /=; first by constructor.
move/List.NoDup_cons_iff: hl => [hx hl]; apply: NoDup_app'; last 2 first.
- exact: IH.
- by case=> a c; rewrite In_pairs => /List.in_map_iff[y [[<- _] _]] [].
clear -hm; elim: m hm => [|y m IH] /= h; first by constructor.
move/List.NoDup_cons_iff: h => [hy h]; constructor; last exact: IH.
by move=> /List.in_map_iff[y' [[e] h']]; apply: hy; rewrite -e.
Qed.
Lemma In_enum (l : seq F) x : List.In x l <-> x \in l.
Proof.
elim: l => [|y l IH] //=; rewrite inE IH; split; first by case=> [->|->]; rewrite ?eqxx ?orbT.
by case/orP=> [/eqP ->|]; auto.
Qed.
Lemma NoDup_uniq (l : seq F) : uniq l -> List.NoDup l.
Proof. by elim: l => [|y l IH] /=; [constructor | case/andP=> /negP h1 h2; constructor; [rewrite In_enum|apply: IH]]. Qed.
(* all_tapes lists every choice of scalars, once *)
Theorem C41_all_tapes s : (forall t, List.In t (all_tapes s)) /\ List.NoDup (all_tapes s) /\ size (all_tapes s) = (q ^ steps s)%N.
Proof.
have en : List.NoDup (enum F) by apply: NoDup_uniq; exact: enum_uniq.
have ea r : List.In r (enum F) by apply/In_enum; rewrite mem_enum.
elim: s => [|s [h1 [h2 h3]] i|s [h1 [h2 h3]] s' [h1' [h2' h3']]] /=.
- by split=> [[]|]; [left|split=> //; constructor; [case|constructor]].
- split=> [[r t]|]; first by apply/In_pairs.
  by split; [apply: NoDup_pairs | rewrite size_allpairs -cardE h3 expnS].
split=> [[r [t t']]|]; first by apply/In_pairs; split=> //; apply/In_pairs.
split; first by apply: NoDup_pairs => //; apply: NoDup_pairs.
by rewrite !size_allpairs -cardE h3 h3' expnS expnD.
Qed.

Lemma count_pairs (T : Type) (P : F -> T -> bool) (ts : seq T) :
  count (fun x => P x.1 x.2) [seq (r, t) | r <- enum F, t <- ts] = (\sum_(t <- ts) #|[pred r | P r t]|)%N.
Proof.
rewrite count_flatten -map_comp sumnE big_map.
under eq_bigr do rewrite /= count_map -sum1_count big_mkcond.
rewrite exchange_big /=; apply: eq_bigr => t _.
by rewrite -big_mkcond /= big_enum_cond /= sum1_card.
Qed.

Lemma roots_le (A b : G) : (#|[pred r : F | (r *: A + b == 0)%R]| <= if A == 0%R then (if b == 0%R then q else 0) else 1)%N.
Proof.
case: eqP => [->|/eqP hA].
  case: eqP => [_|/eqP hb]; first exact: max_card.
  by rewrite (_ : #|_| = 0%N) //; apply: eq_card0 => r; rewrite inE scaler0 add0r (negbTE hb).
rewrite leqNgt; apply/negP => /card_gt1P[r [r' [hr hr' hne]]]; move: hr hr'; rewrite !inE => /eqP h /eqP h'.
have : (r - r') *: A == 0 by rewrite scalerBl -(addrK b (r *: A)) h -(addrK b (r' *: A)) h' subrr.
by rewrite scaler_eq0 (negbTE hA) orbF subr_eq0 (negbTE hne).
Qed.

Variable v : nat -> G.
Definition bad (s : sched) : nat := count (fun t => combined v t == 0) (all_tapes s).
Lemma zeros (s : sched) (t : tape F s) : ~~ has (fun i => v i != 0) (items s) -> combined v t = 0.
Proof.
elim: s t => [|s IH i|s IH s' IH'] t //=.
  by rewrite has_rcons negb_or negbK => /andP[/eqP -> h]; rewrite IH // scaler0 addr0.
by rewrite has_cat negb_or => /andP[h h']; rewrite IH // IH' // scaler0 addr0.
Qed.
Lemma sum_le (T : Type) (f b : T -> G) (ts : seq T) :
  (\sum_(t <- ts) #|[pred r : F | (r *: f t + b t == 0)%R]| <= q * count (fun t => f t == 0%R) ts + size ts)%N.
Proof.
elim: ts => [|t ts IHt]; first by rewrite big_nil.
rewrite big_cons /=; have := roots_le (f t) (b t).
case: (f t == 0%R) => /= hr; last first.
  by rewrite add0n addnS -add1n leq_add.
rewrite mulnDr muln1 -addnA leq_add //; last by rewrite addnS leqW.
by apply: leq_trans hr _; case: ifP.
Qed.
Lemma arith c n k : (c * q <= k * n)%N -> ((q * c + n) * q <= k.+1 * (q * n))%N.
Proof.
move=> h; rewrite mulnDl mulSn addnC; apply: leq_add; first by rewrite mulnC.
by rewrite -mulnA [in X in (_ <= X)%N]mulnCA leq_mul2l h orbT.
Qed.
Lemma count_fst (A C : Type) (P : pred A) (l : seq A) (m : seq C) :
  count (fun x => P x.1) [seq (a, c) | a <- l, c <- m] = (count P l * size m)%N.
Proof.
elim: l => //= a l IH; rewrite count_cat IH mulnDl; congr (_ + _)%N.
by clear; elim: m => /= [|c m ->]; rewrite ?muln0 // mulnS.
Qed.
Lemma count_snd (A C : Type) (P : pred C) (l : seq A) (m : seq C) :
  count (fun x => P x.2) [seq (a, c) | a <- l, c <- m] = (size l * count P m)%N.
Proof. by elim: l => //= a l IH; rewrite count_cat IH mulSn count_map. Qed.

(* a batch with a non-zero item is accepted for at most steps/|F| of the scalars *)
Lemma bad_le s : has (fun i => v i != 0) (items s) -> (bad s * q <= steps s * size (all_tapes s))%N.
Proof.
elim: s => [|s IH i|s IH s' IH'] //= h; rewrite /bad /=.
- rewrite (count_pairs (fun r t => r *: combined v t + v i == 0)) size_allpairs -cardE.
  case hs: (has (fun i => v i != 0) (items s)); last first.
    move: h; rewrite has_rcons hs orbF => hi.
    rewrite big1 ?mul0n // => t _; apply/eqP; rewrite -leqn0; apply: leq_trans (roots_le _ _) _.
    by rewrite zeros ?hs // eqxx (negbTE hi).
  apply: leq_trans (leq_mul (sum_le _ (fun _ => v i) _) (leqnn _)) _.
  exact: arith (IH hs).
- case hs: (has (fun i => v i != 0) (items s)); last first.
    have hs' : has (fun i => v i != 0) (items s') by move: h; rewrite has_cat hs.
    rewrite (eq_count (a2 := fun x : F * (tape F s * tape F s') => (fun y : tape F s * tape F s' => combined v y.2 == 0) x.2)).
      rewrite (count_snd (fun y : tape F s * tape F s' => combined v y.2 == 0)) (count_snd (fun t' => combined v t' == 0)) !size_allpairs -cardE -/(bad s').
      have := IH' hs'; set c := bad s'; set n := size (all_tapes s'); set n1 := size (all_tapes s) => hc.
      have -> : (q * (n1 * c) * q = (q * n1) * (c * q))%N by rewrite mulnA -!mulnA.
      have -> : ((steps s + steps s').+1 * (q * (n1 * n)) = (q * n1) * ((steps s + steps s').+1 * n))%N.
        by rewrite -!mulnA mulnCA; congr (_ * _)%N; rewrite mulnCA.
      rewrite leq_mul //.
      by apply: leq_trans hc _; rewrite leq_mul2r leqW ?orbT // leq_addl.
    by case=> r [t t'] /=; rewrite zeros ?hs // scaler0 add0r.
  rewrite (count_pairs (fun r (x : tape F s * tape F s') => r *: combined v x.1 + combined v x.2 == 0)).
  rewrite size_allpairs -cardE.
  apply: leq_trans (leq_mul (sum_le (fun x : tape F s * tape F s' => combined v x.1) _ _) (leqnn _)) _.
  apply: arith; rewrite (count_fst (fun t => combined v t == 0)) size_allpairs -/(bad s).
  rewrite mulnAC mulnA leq_mul //; apply: leq_trans (IH hs) _.
  by rewrite leq_mul2r leq_addr orbT.
Qed.
End Count.

(* If some readable proof would be rejected on its own, then for any schedule the batch is
   accepted for at most (number of accumulation steps)/|F| of all choices of scalars. *)
Theorem C41_random : forall (F : finFieldType) (B : fieldType) (G : lmodType F) (E : env B G) (ps : params G)
    (vk : vkey G) (batch : seq (batch_item F)) (s : sched),
  env_ok E -> params_ok E ps -> (0 < p_k ps)%N ->
  items s = iota 0 (size batch) ->
  (forall it, it \in batch -> exists m, item_msm E ps vk it = Ok m) ->
  (exists it, it \in batch /\ single E ps vk it <> Ok tt) ->
  (count (fun t => if finalize E ps vk batch t is Ok true then true else false) (all_tapes F s) * #|F|
     <= steps s * size (all_tapes F s))%N.
Proof.
move=> F B G E ps vk batch s ok pok k0 hi hr [it [hit hs]].
have [i hlt hv] := value_nz ok pok k0 hit hs (hr _ hit).
rewrite (eq_count (a2 := fun t : tape F s => combined (value_of E ps [seq item_msm E ps vk it | it <- batch]) t == 0)).
  apply: bad_le; apply/hasP; exists i => //; by rewrite hi mem_iota add0n.
by move=> t; rewrite (finalizeE ok pok k0 t hi hr); case: (_ == 0).
Qed.
Print Assumptions C41_sequential_items.
Print Assumptions C41_rayon_items.
Print Assumptions C41_all_valid.
Print Assumptions C41_unreadable.
Print Assumptions C41_all_tapes.
Print Assumptions C41_random.

(* Non-vacuity: the circuit of Ex_Plonk, F_97 as a finite field, and a batch of an accepted
   proof and one that is rejected by its final check. *)
Definition K97_countMixin := CanCountMixin k_natK.
Canonical K97_countType := CountType K97 K97_countMixin.
Definition k_ord (x : K97) : 'I_97 := Ordinal (k_nat_lt x).
Lemma k_ordK : cancel k_ord (fun i : 'I_97 => (i : nat)%:R : K97).
Proof. exact: k_natrK. Qed.
Definition K97_finMixin := CanFinMixin k_ordK.
Canonical K97_finType := FinType K97 K97_finMixin.
Canonical K97_finZmodType := [finZmodType of K97].
Canonical K97_finRingType := [finRingType of K97].
Canonical K97_finComRingType := [finComRingType of K97].
Canonical K97_finUnitRingType := [finUnitRingType of K97].
Canonical K97_finComUnitRingType := [finComUnitRingType of K97].
Canonical K97_finIdomainType := [finIdomainType of K97].
Canonical K97_finFieldType := [finFieldType of K97].

(* two proofs, written out: 32 bytes a word, of which all but the first are zero *)
Definition words32 (ws : seq nat) : seq nat := flatten [seq w :: nseq 31 0%N | w <- ws].
Definition good_bytes97 : seq nat := words32 [:: 96; 13; 74; 52; 39; 38; 76; 54; 84; 24; 73; 55; 24; 33; 15; 10; 41; 78; 15; 14; 12; 73; 29; 96; 
  6; 91; 61; 72; 61; 49; 26; 67; 17; 53; 54; 10]%N.
Definition bad_bytes97 : seq nat := words32 [:: 27; 41; 5; 41; 8; 76; 52; 61; 8; 0; 53; 45; 83; 31; 80; 54; 16; 73; 68; 76; 37; 86; 51; 74; 
  95; 80; 49; 43; 62; 33; 16; 83; 32; 77; 31; 22]%N.
(* they are what create_proof writes for a satisfied and for a violated circuit *)
Check (erefl (Some good_bytes97) <: Some good_bytes97 = proof97 1 0 1 1).
Check (erefl (Some bad_bytes97) <: Some bad_bytes97 = proof97 2 0 1 0).
Definition good97 : batch_item F97 := ([:: [:: [:: 1]]], good_bytes97).
Definition bad97 : batch_item F97 := ([:: [:: [:: 0]]], bad_bytes97).
Definition with_keys97 (P : params G97 -> vkey G97 -> bool) : bool :=
  odflt false (omap (fun k : params G97 * pkey G97 => P k.1 (pk_vk k.2)) keys97).
Definition okb {A : Type} (r : res A) : bool := if r is Ok _ then true else false.
Example C41_batch97 : with_keys97 (fun ps vk =>
  [&& okb (item_msm E97 ps vk good97), okb (item_msm E97 ps vk bad97),
      okb (single E97 ps vk good97) & ~~ okb (single E97 ps vk bad97)]).
Proof. by vm_compute. Qed.
(* the batch of the good proof, twice, is accepted and the mixed one rejected *)
Check (erefl true <: with_keys97 (fun ps vk =>
  (if finalize E97 ps vk [:: good97; good97] (s := sequential 2) (3%:R, (5%:R, tt)) is Ok b then b else false)
  && (if finalize E97 ps vk [:: good97; bad97] (s := sequential 2) (3%:R, (5%:R, tt)) is Ok b then ~~ b else false)) = true).
Lemma hypotheses97 (g b : batch_item F97) : with_keys97 (fun ps vk =>
  [&& okb (item_msm E97 ps vk g), okb (item_msm E97 ps vk b), okb (single E97 ps vk g) & ~~ okb (single E97 ps vk b)]) ->
  exists (ps : params G97) (vk : vkey G97),
  [/\ params_ok E97 ps, (0 < p_k ps)%N,
      (forall it, it \in [:: g; b] -> exists m, item_msm E97 ps vk it = Ok m) &
      (exists it, it \in [:: g; b] /\ single E97 ps vk it <> Ok tt)].
Proof.
rewrite /with_keys97 /keys97; have [ps' -> [pok [ek _]]] := @C11_params_new _ _ _ E97 E97_ok 3 isT isT.
case: cs97 => [m|//]; case: (keygen_vk _ _ _ _ _) => [vk|//|//]; case: (keygen_pk _ _ _ _ _) => [pk'|//|//].
case/and4P=> h1 h2 h3 h4; exists ps', (pk_vk pk'); split; [exact: pok|by rewrite ek| |].
  by move=> it; rewrite !inE => /orP[] /eqP ->; [move: h1|move: h2]; case: (item_msm _ _ _ _) => [m'|//|//] _; exists m'.
by exists b; split; [rewrite !inE eqxx orbT|move=> e; move: h4; rewrite e].
Qed.
(* all the hypotheses of C41_random, for that batch on two threads *)
Example C41_hypotheses97 : items (rayon 0 (Node (Leaf 1) (Leaf 1))) = iota 0 (size [:: good97; bad97]) /\
  exists (ps : params G97) (vk : vkey G97),
  [/\ params_ok E97 ps, (0 < p_k ps)%N,
      (forall it, it \in [:: good97; bad97] -> exists m, item_msm E97 ps vk it = Ok m) &
      (exists it, it \in [:: good97; bad97] /\ single E97 ps vk it <> Ok tt)].
Proof. split; [reflexivity|exact: hypotheses97 C41_batch97]. Qed.
Check (@C41_random K97_finFieldType F97 G97 E97).
