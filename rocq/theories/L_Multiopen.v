(* Lemmas for construct_intermediate_sets *)
Set Warnings "-notation-overridden,-ambiguous-paths".
From mathcomp Require Import all_ssreflect all_algebra.
From Verif Require Import Util M_FFT M_Multiexp M_Poly M_Domain M_Env M_Transcript M_Commit M_IPA M_Multiopen.
Set Implicit Arguments.
Unset Strict Implicit.

Section Firsts.
Variable T : eqType.
Implicit Types (s : seq T) (x : T).
(* distinct elements in order of first occurrence *)
Definition firsts s : seq T := foldl (fun acc x => if x \in acc then acc else rcons acc x) [::] s.
Lemma mem_firsts s : firsts s =i s.
Proof.
rewrite /firsts => x; rewrite -[X in _ = (_ \in X)]/([::] ++ s).
elim: s [::] => [|y s IH] acc /=; first by rewrite cats0.
rewrite IH !mem_cat inE; case: ifP => h; last by rewrite mem_rcons inE; case: (x == y); rewrite ?orbT.
by case: eqP => [->|//]; rewrite h.
Qed.
Lemma firsts_rcons s x : firsts (rcons s x) = if x \in s then firsts s else rcons (firsts s) x.
Proof. by rewrite {1}/firsts -cats1 foldl_cat /= -/(firsts s) mem_firsts. Qed.
Lemma firsts_uniq s : uniq (firsts s).
Proof.
elim/last_ind: s => // s x IH; rewrite firsts_rcons; case: ifP => // h.
by rewrite rcons_uniq IH mem_firsts h.
Qed.
Lemma index_firsts_rcons s x y : y \in s -> index y (firsts (rcons s x)) = index y (firsts s).
Proof.
by move=> h; rewrite firsts_rcons; case: ifP => // _; rewrite -cats1 index_cat mem_firsts h.
Qed.
Lemma index_firsts_new s x : x \notin s -> index x (firsts (rcons s x)) = size (firsts s).
Proof.
move=> h; rewrite firsts_rcons (negbTE h) -cats1 index_cat mem_firsts (negbTE h) /=.
by rewrite eqxx addn0.
Qed.
End Firsts.

Section Assoc.
Variables (K : eqType) (A : Type).
Lemma aget_map (f : K -> A) ks k : aget [seq (x, f x) | x <- ks] k = if k \in ks then Some (f k) else None.
Proof.
elim: ks => //= x ks ->; rewrite inE eq_sym; case: eqP => //= ->; by [].
Qed.
Lemma aset_map (f : K -> A) ks k a :
  aset [seq (x, f x) | x <- ks] k a = [seq (x, if x == k then a else f x) | x <- ks].
Proof. by rewrite /aset -map_comp; apply: eq_map => x /=; case: eqP. Qed.
Lemma or_insert_map (f : K -> A) ks k v : or_insert [seq (x, f x) | x <- ks] k v =
  if k \in ks then (f k, [seq (x, f x) | x <- ks]) else (v, rcons [seq (x, f x) | x <- ks] (k, v)).
Proof. by rewrite /or_insert aget_map; case: ifP. Qed.
End Assoc.

Lemma all_some_map (T W : Type) (f : T -> W) s : all_some [seq Some (f x) | x <- s] = Some [seq f x | x <- s].
Proof. by elim: s => //= x s ->. Qed.

Section BSet.
Definition bset (s : seq nat) : seq nat := foldl (fun s i => bset_insert i s) [::] s.
Lemma mem_bset_insert i s : bset_insert i s =i i :: s.
Proof.
elim: s => //= x s IH y; case: ifP => // _; case: eqP => [->|_]; rewrite !inE.
  by rewrite orbA orbb.
by rewrite IH inE orbCA.
Qed.
Lemma path_bset_insert i m s : m < i -> path ltn m s -> path ltn m (bset_insert i s).
Proof.
elim: s m => [|x s IH] m /= h; first by rewrite h.
move=> /andP [h1 h2]; case: ltngtP => [h3|h3|h3]; rewrite /= ?h ?h1 ?h3 ?h2 //.
exact: IH.
Qed.
Lemma sorted_bset_insert i s : sorted ltn s -> sorted ltn (bset_insert i s).
Proof.
case: s => //= x s h; case: ltngtP => [h3|h3|h3]; rewrite /= ?h3 ?h //.
exact: path_bset_insert.
Qed.
Lemma mem_bset s : bset s =i s.
Proof.
rewrite /bset => x; rewrite -[X in _ = (_ \in X)]/([::] ++ s).
elim: s [::] => [|y s IH] acc /=; first by rewrite cats0.
by rewrite IH !mem_cat mem_bset_insert !inE orbCA orbA.
Qed.
Lemma sorted_bset s : sorted ltn (bset s).
Proof.
rewrite /bset; have : sorted ltn ([::] : seq nat) by [].
by elim: s [::] => //= y s IH acc h; apply: IH; exact: sorted_bset_insert.
Qed.
Lemma bset_uniq s : uniq (bset s).
Proof. exact: (sorted_uniq ltn_trans ltnn (sorted_bset s)). Qed.
End BSet.

Section CIS.
Variables (K P : eqType) (D V : Type) (d0 : D) (p0 : P) (v0 : V).
Local Notation query := (query K P D V).
Implicit Types (qs : seq query) (q : query) (k : K).

Definition qkeys qs := [seq q_key q | q <- qs].
Definition qpts qs := [seq q_point q | q <- qs].
Definition qpairs qs := [seq (q_key q, q_point q) | q <- qs].
(* everything below depends on keys and points only, except qdata and qevals *)
Definition kp_idx (kp : seq (K * P)) (p : P) := index p (firsts (map snd kp)).
Definition kp_pi (kp : seq (K * P)) k := [seq kp_idx kp e.2 | e <- kp & e.1 == k].
Definition kp_ps (kp : seq (K * P)) k := bset (kp_pi kp k).
Definition kp_sets (kp : seq (K * P)) := firsts [seq kp_ps kp k | k <- firsts (map fst kp)].
Definition kp_si (kp : seq (K * P)) k := index (kp_ps kp k) (kp_sets kp).
Definition qdata qs k := head d0 [seq q_data q | q <- qs & q_key q == k].
Definition qeval qs k p := head v0 [seq q_eval q | q <- qs & (q_key q == k) && (q_point q == p)].

Lemma map_fst_pairs qs : map fst (qpairs qs) = qkeys qs.
Proof. by rewrite /qpairs -map_comp. Qed.
Lemma map_snd_pairs qs : map snd (qpairs qs) = qpts qs.
Proof. by rewrite /qpairs -map_comp. Qed.

Lemma mem_kp_pi kp k p : p \in map snd kp -> (kp_idx kp p \in kp_pi kp k) = ((k, p) \in kp).
Proof.
move=> hp; apply/mapP/idP => [[[k' p'] + /=]|h]; last by exists (k, p); rewrite ?mem_filter /= ?eqxx.
rewrite mem_filter /= => /andP [/eqP -> h] e; suff -> : p = p' by [].
have h1 : p \in firsts (map snd kp) by rewrite mem_firsts.
have h2 : p' \in firsts (map snd kp) by rewrite mem_firsts; apply/mapP; exists (k, p').
by rewrite -(nth_index p h1) -/(kp_idx kp p) e nth_index.
Qed.

Lemma mem_qkeys qs k : (k \in qkeys qs) = (0 < size [seq q <- qs | q_key q == k]).
Proof. by rewrite -has_pred1 has_map size_filter -has_count. Qed.

(* first loop *)
Lemma cis_loop1E qs : foldl (@cis_step1 K P D V) ([::], [::]) qs =
  ([seq (p, index p (firsts (qpts qs))) | p <- firsts (qpts qs)],
   [seq (k, (qdata qs k, CData 0 (kp_pi (qpairs qs) k) [::])) | k <- firsts (qkeys qs)]).
Proof.
elim/last_ind: qs => // qs q IH; rewrite -cats1 foldl_cat IH /= cats1.
rewrite or_insert_map mem_firsts.
set pm := if _ then _ else _.
have -> : pm = (index (q_point q) (firsts (qpts (rcons qs q))),
   [seq (p, index p (firsts (qpts (rcons qs q)))) | p <- firsts (qpts (rcons qs q))]).
  rewrite /pm /qpts map_rcons /=; case: ifP => h.
    by rewrite firsts_rcons h.
  rewrite index_firsts_new ?h // size_map; congr pair.
  rewrite [X in _ = map _ X]firsts_rcons h map_rcons index_firsts_new ?h //; congr rcons.
  by apply/eq_in_map => p; rewrite mem_firsts => hp; rewrite index_firsts_rcons.
rewrite or_insert_map mem_firsts.
have ers : qpairs (rcons qs q) = qpairs qs ++ [:: (q_key q, q_point q)].
  by rewrite /qpairs map_rcons cats1.
have epi k : kp_pi (qpairs (rcons qs q)) k =
   kp_pi (qpairs qs) k ++ (if q_key q == k then [:: index (q_point q) (firsts (qpts (rcons qs q)))] else [::]).
  rewrite /kp_pi /kp_idx !map_snd_pairs ers filter_cat map_cat; congr (_ ++ _).
    apply/eq_in_map => -[k' p']; rewrite mem_filter => /andP [_ hq].
    rewrite /qpts map_rcons index_firsts_rcons //= -/(qpts qs) -map_snd_pairs.
    by apply/mapP; exists (k', p').
  by rewrite /=; case: eqP.
have eqd k : k \in qkeys qs -> qdata (rcons qs q) k = qdata qs k.
  rewrite mem_qkeys => hk; rewrite /qdata -cats1 filter_cat map_cat.
  by case: [seq _ <- qs | _] hk.
have hkr : qkeys (rcons qs q) = rcons (qkeys qs) (q_key q) by rewrite /qkeys map_rcons.
case: ifP => h; rewrite hkr firsts_rcons h; congr pair.
  rewrite aset_map; apply/eq_in_map => k; rewrite mem_firsts => hk; rewrite eqd // epi eq_sym.
  by case: eqP => [->|_]; rewrite ?cats0 ?cats1.
rewrite /aset !map_rcons /= eqxx; congr rcons; last first.
  have := h; rewrite mem_qkeys lt0n => /negbFE /eqP /size0nil e0.
  congr (_, (_, CData _ _ _)).
    by rewrite /qdata -cats1 filter_cat e0 /= eqxx.
  by rewrite epi eqxx [kp_pi _ _](_ : _ = [::]) // /kp_pi /qpairs filter_map /= e0.
rewrite -map_comp; apply/eq_in_map => k; rewrite mem_firsts => hk /=.
case: eqP => [e|ne]; first by rewrite -e hk in h.
rewrite eqd // epi; case: eqP => [e|_]; last by rewrite cats0.
by case: ne.
Qed.

(* second loop: over the commitment map *)
Lemma cis_loop2E (ks : seq K) (f : K -> D) (g : K -> seq nat) : uniq ks ->
  let sets := firsts [seq bset (g k) | k <- ks] in
  foldl (@cis_step2 K D V) ([::], [::], [::]) [seq (k, (f k, CData 0 (g k) [::])) | k <- ks] =
  ([seq (s, index s sets) | s <- sets], [seq (k, bset (g k)) | k <- ks],
   [seq (k, (f k, CData 0 (g k) (nseq (size (bset (g k))) None))) | k <- ks]).
Proof.
elim/last_ind: ks => // ks k IH; rewrite rcons_uniq => /andP [hk /IH {}IH].
rewrite /= map_rcons -cats1 foldl_cat {}IH /= -/(bset _).
rewrite aget_map (negbTE hk) or_insert_map mem_firsts !map_rcons.
case: ifP => h /=; congr (_, _, _); move: h.
  by move: [seq bset (g k) | k <- ks] (bset (g k)) => l s h; rewrite firsts_rcons h.
move: [seq bset (g k) | k <- ks] (bset (g k)) => l s h.
rewrite [X in _ = map _ X]firsts_rcons h map_rcons index_firsts_new ?h // size_map; congr rcons.
by apply/eq_in_map => x; rewrite mem_firsts => hx; rewrite index_firsts_rcons.
Qed.

(* third loop *)
Section Loop3.
Variable all_qs : seq query.
Let kp := qpairs all_qs.
Definition ohead (T : Type) (s : seq T) : option T := if s is x :: _ then Some x else None.
Definition slot (done : seq query) k (i : nat) : option V :=
  ohead [seq q_eval q | q <- done & (q_key q == k) && (kp_idx kp (q_point q) == i)].
Definition st3 (done : seq query) : seq (K * (D * cdata (option V))) :=
  [seq (k, (qdata all_qs k, CData (if k \in qkeys done then kp_si kp k else 0) (kp_pi kp k)
              [seq slot done k i | i <- kp_ps kp k])) | k <- firsts (qkeys all_qs)].

Lemma filter_slot done k p : (forall e, e \in qpairs done -> e \in kp) -> p \in map snd kp ->
  [seq q <- done | (q_key q == k) && (kp_idx kp (q_point q) == kp_idx kp p)] =
  [seq q <- done | (q_key q == k) && (q_point q == p)].
Proof.
move=> sub hp; elim: done sub => //= q done IH sub; rewrite IH; last first.
  by move=> e he; apply: sub; rewrite inE he orbT.
suff -> : (kp_idx kp (q_point q) == kp_idx kp p) = (q_point q == p) by [].
apply/eqP/eqP => [e|->//].
have h1 : p \in firsts (map snd kp) by rewrite mem_firsts.
have h2 : q_point q \in firsts (map snd kp).
  by rewrite mem_firsts; apply/mapP; exists (q_key q, q_point q) => //; apply: sub; rewrite inE eqxx.
by rewrite -(nth_index p h1) -/(kp_idx kp p) -e nth_index.
Qed.

Lemma slot_none done k p : (forall e, e \in qpairs done -> e \in kp) -> p \in map snd kp ->
  (if slot done k (kp_idx kp p) is None then true else false) = ((k, p) \notin qpairs done).
Proof.
move=> sub hp.
rewrite /slot filter_slot //.
have -> : ((k, p) \in qpairs done) = (0 < size [seq q <- done | (q_key q == k) && (q_point q == p)]).
  by rewrite -has_pred1 has_map size_filter -has_count.
by case: [seq _ <- done | _].
Qed.

Lemma cis_loop3E done todo : all_qs = done ++ todo -> uniq (qpairs done) ->
  let fs := kp_sets kp in
  cis_loop3 [seq (p, kp_idx kp p) | p <- firsts (qpts all_qs)] [seq (s, index s fs) | s <- fs]
    [seq (k, kp_ps kp k) | k <- firsts (qkeys all_qs)] (st3 done) todo =
  Ok (if uniq (qpairs (done ++ todo)) then Some (st3 (done ++ todo)) else None).
Proof.
move=> + + fs; elim: todo done => [|q todo IH] done eqs hu; first by rewrite cats0 hu.
rewrite /= /cis_step3.
have hk : q_key q \in qkeys all_qs by rewrite eqs /qkeys map_cat mem_cat /= inE eqxx orbT.
have hp : q_point q \in qpts all_qs by rewrite eqs /qpts map_cat mem_cat /= inE eqxx orbT.
have hkp : (q_key q, q_point q) \in kp by rewrite /kp eqs /qpairs map_cat mem_cat /= inE eqxx orbT.
have hp' : q_point q \in map snd kp by rewrite /kp map_snd_pairs.
have sub e : e \in qpairs done -> e \in kp by rewrite /kp eqs /qpairs map_cat mem_cat => ->.
have hs : kp_ps kp (q_key q) \in fs.
  by rewrite /fs /kp_sets mem_firsts; apply/mapP; exists (q_key q); rewrite ?mem_firsts // map_fst_pairs.
rewrite [aget (st3 done) _]aget_map mem_firsts hk /= aget_map mem_firsts hp /= aget_map mem_firsts hk /= aget_map hs /=.
have hi : kp_idx kp (q_point q) \in kp_ps kp (q_key q) by rewrite mem_bset mem_kp_pi.
rewrite hi /= size_map index_mem hi /=.
rewrite (nth_map 0) ?index_mem // nth_index //.
have := slot_none (q_key q) sub hp'; case es: slot => [v|] /esym h.
  rewrite /=; case: ifP => // /negP []; move: h => /negbFE h.
  rewrite /qpairs map_cat cat_uniq => /and3P [_ /hasPn h2 _].
  by have := h2 (q_key q, q_point q); rewrite /= inE eqxx h => /(_ isT).
rewrite /= -cat_rcons -IH; last 2 first.
- by rewrite cat_rcons.
- by rewrite /qpairs map_rcons rcons_uniq h.
congr cis_loop3; rewrite aset_map /st3; apply/eq_in_map => k; rewrite mem_firsts => hkk.
congr pair; rewrite /qkeys map_rcons mem_rcons inE.
have sl k' i : slot (rcons done q) k' i = if slot done k' i is Some v then Some v else
    if (q_key q == k') && (kp_idx kp (q_point q) == i) then Some (q_eval q) else None.
  rewrite /slot -cats1 filter_cat map_cat /=.
  by case: [seq _ <- done | _] => //=; case: (_ && _).
case: (eqVneq k (q_key q)) => [->|ne] /=.
  congr (_, CData _ _ _).
  apply: (@eq_from_nth _ None) => [|i].
    by rewrite size_set_nth !size_map (maxn_idPr _) // index_mem.
  rewrite size_set_nth size_map (maxn_idPr _) ?index_mem // => hii.
  rewrite nth_set_nth /= !(nth_map 0) // sl /=.
  case: eqP => [->|ni].
    rewrite nth_index // (_ : slot _ _ _ = None); last by rewrite -es.
    by rewrite !eqxx.
  rewrite andbC; case: eqP => [e|_] /=; last by case: slot.
  by case: ni; rewrite e index_uniq // bset_uniq.
congr (_, CData _ _ _); apply: eq_map => i; rewrite sl [q_key q == k]eq_sym (negbTE ne) /=.
by case: slot.
Qed.
End Loop3.

Lemma point_setsE (fs : seq (seq nat)) (f : seq nat -> seq P) (inv : seq (nat * P)) :
  uniq fs -> (forall s, s \in fs -> all_some [seq aget inv i | i <- s] = Some (f s)) ->
  foldl (fun acc e =>
        obind (fun acc => obind (fun pts => vec_upd acc e.2 (fun v => v ++ pts))
                                (all_some [seq aget inv i | i <- e.1])) acc)
      (Some (nseq (size fs) [::])) [seq (s, index s fs) | s <- fs] = Some [seq f s | s <- fs].
Proof.
move=> hu hf.
suff H : forall r l, fs = l ++ r -> foldl (fun acc (e : seq nat * nat) =>
        obind (fun acc => obind (fun pts => vec_upd acc e.2 (fun v => v ++ pts))
                                (all_some [seq aget inv i | i <- e.1])) acc)
      (Some ([seq f s | s <- l] ++ nseq (size r) [::])) [seq (s, index s fs) | s <- r] = Some [seq f s | s <- fs].
  exact: (H fs [::]).
elim=> [|s r IH] l e; first by rewrite /= cats0 e cats0.
rewrite [map _ (s :: r)]/= [foldl _ _ _]/=.
have hs : s \in fs by rewrite e mem_cat inE eqxx orbT.
have -> : index s fs = size l.
  rewrite e index_cat; move: hu; rewrite e cat_uniq => /and3P [_ /hasPn /(_ s)].
  rewrite inE eqxx => /(_ isT) /negbTE h _; rewrite [s \in l]h /=.
  by rewrite eqxx addn0.
rewrite hf //= -(IH (rcons l s)); last by rewrite cat_rcons.
congr foldl; rewrite -(size_map f l) map_rcons cat_rcons.
by elim: [seq f s | s <- l] => [|y m IHm] //=; rewrite IHm.
Qed.

(* what construct_intermediate_sets computes *)
Definition kp_pset (kp : seq (K * P)) k := [seq p <- firsts (map snd kp) | (k, p) \in kp].
Lemma kp_psE kp k : kp_ps kp k = [seq kp_idx kp p | p <- kp_pset kp k].
Proof.
apply: (irr_sorted_eq ltn_trans ltnn); first exact: sorted_bset.
  rewrite /kp_pset /kp_idx.
  have := iota_ltn_sorted 0 (size (firsts (map snd kp))).
  have -> : iota 0 (size (firsts (map snd kp))) = [seq index p (firsts (map snd kp)) | p <- firsts (map snd kp)].
    apply: (@eq_from_nth _ 0) => [|i]; rewrite ?size_map size_iota // => hi.
    rewrite nth_iota // (nth_map p0) // index_uniq // ?firsts_uniq //.
  move: (firsts _) => s0; move: (fun p => index p s0) => a.
  by rewrite !sorted_map; apply: sorted_filter => x y z; exact: ltn_trans.
move=> i; rewrite mem_bset; apply/mapP/mapP => -[].
  move=> [k' p]; rewrite mem_filter /= => /andP [/eqP -> h] ->; exists p => //.
  by rewrite mem_filter h mem_firsts; apply/mapP; exists (k, p).
move=> p; rewrite mem_filter => /andP [h _] ->; exists (k, p) => //.
by rewrite mem_filter h eqxx.
Qed.

Lemma mem_pset kp k p : (p \in kp_pset kp k) = ((k, p) \in kp).
Proof.
rewrite mem_filter mem_firsts; case: ((k, p) \in kp) / boolP => //= h.
by apply/mapP; exists (k, p).
Qed.
Lemma pset_uniq kp k : uniq (kp_pset kp k).
Proof. exact: filter_uniq (firsts_uniq _). Qed.
Lemma kp_sets_pts kp k : [seq nth p0 (firsts (map snd kp)) i | i <- kp_ps kp k] = kp_pset kp k.
Proof.
rewrite kp_psE -map_comp -[RHS]map_id; apply/eq_in_map => p; rewrite mem_filter => /andP [_ h] /=.
by rewrite nth_index.
Qed.
Definition kp_point_sets (kp : seq (K * P)) : seq (seq P) :=
  [seq [seq nth p0 (firsts (map snd kp)) i | i <- s] | s <- kp_sets kp].
Definition cis_cdata qs : seq (K * (D * cdata V)) :=
  [seq (k, (qdata qs k, CData (kp_si (qpairs qs) k) (kp_pi (qpairs qs) k)
       [seq qeval qs k p | p <- kp_pset (qpairs qs) k])) | k <- firsts (qkeys qs)].

Lemma cisE qs : construct_intermediate_sets qs =
  Ok (if uniq (qpairs qs) then Some (cis_cdata qs, kp_point_sets (qpairs qs)) else None).
Proof.
rewrite /construct_intermediate_sets cis_loop1E cis_loop2E ?firsts_uniq //.
rewrite -!map_fst_pairs -/(kp_sets (qpairs qs)) map_fst_pairs.
have -> : [seq (p, index p (firsts (qpts qs))) | p <- firsts (qpts qs)] =
          [seq (p, kp_idx (qpairs qs) p) | p <- firsts (qpts qs)].
  by rewrite /kp_idx map_snd_pairs.
have e0 : [seq (k, (qdata qs k, CData 0 (kp_pi (qpairs qs) k) (nseq (size (bset (kp_pi (qpairs qs) k))) (@None V))))
  | k <- firsts (qkeys qs)] = st3 qs [::].
  rewrite /st3; apply: eq_map => k; congr (_, (_, CData _ _ _)).
  rewrite -/(kp_ps (qpairs qs) k); elim: (kp_ps _ _) => //= i s ->; by rewrite /slot.
rewrite e0 (@cis_loop3E qs [::] qs) // cat0s [rbind (Ok _) _]/=.
case: ifP => // hu /=.
have key k p : (k, p) \in qpairs qs -> slot qs qs k (kp_idx (qpairs qs) p) = Some (qeval qs k p).
  move=> h; have hp : p \in map snd (qpairs qs) by apply/mapP; exists (k, p).
  have := slot_none k (fun _ => id) hp; rewrite h /slot /qeval.
  rewrite filter_slot //; by case: [seq _ <- qs | _].
set cmap := all_some _.
have -> : cmap = Some (cis_cdata qs).
  rewrite /cmap /cis_cdata -all_some_map -map_comp; congr all_some.
  apply/eq_in_map => k; rewrite mem_firsts => hk /=.
  rewrite hk (_ : all_some _ = Some [seq qeval qs k p | p <- kp_pset (qpairs qs) k]) //.
  rewrite -all_some_map kp_psE -map_comp; congr all_some; apply/eq_in_map => p /=.
  by rewrite mem_pset => /key.
rewrite size_map (@point_setsE _ (map (nth p0 (firsts (qpts qs))))) ?firsts_uniq //=.
  by rewrite /kp_point_sets map_snd_pairs.
move=> s; rewrite /kp_sets mem_firsts => /mapP [k]; rewrite mem_firsts => hk ->.
rewrite -all_some_map; congr all_some; apply/eq_in_map => i.
rewrite kp_psE => /mapP [p]; rewrite mem_filter => /andP [_ hp] ->.
rewrite -map_comp -map_snd_pairs [X in Some X](_ : _ = p); last exact: nth_index.
have := firsts_uniq (map snd (qpairs qs)); have sub : {subset firsts (map snd (qpairs qs)) <= map snd (qpairs qs)}.
  by move=> x; rewrite mem_firsts.
have : {in firsts (map snd (qpairs qs)) &, injective (kp_idx (qpairs qs))}.
  by move=> x y hx hy /= e; rewrite -(nth_index p hx) -/(kp_idx _ _) e nth_index.
move: hp; move: (kp_idx _) (firsts _) => g l; elim: l => //= x l IH.
rewrite inE => + hinj; case: eqP => [->|ne] /=; first by rewrite eqxx.
move=> hp /andP [hx hl]; case: eqP => [e|_].
  by case: ne; apply: hinj; rewrite ?inE ?eqxx ?hp ?orbT.
by apply: IH => // y z hy hz; apply: hinj; rewrite inE ?hy ?hz orbT.
Qed.
End CIS.
