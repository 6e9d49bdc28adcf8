(* C25 and C26: completeness and soundness of the permutation argument. *)
Set Warnings "-notation-overridden,-ambiguous-paths".
From mathcomp Require Import all_ssreflect perm all_algebra fingraph.
From Coq Require Import Relation_Operators.
From Verif Require Import Util M_Poly L_Poly M_Domain L_Domain P_Domain M_Evaluator S_Evaluator M_Assigned M_Env
  M_Transcript L_Transcript M_Commit S_Commit L_Commit P_Commit L_WP L_WPR M_Circuit M_Selectors M_Copy L_Copy P_Copy
  M_Keys M_Permutation S_Count L_PermMath L_Sigma P_Sigma L_Chunks S_Permutation L_PermRows L_PermCommit
  Ex_Field Ex_Env.
Import GRing.Theory.
Set Implicit Arguments.
Unset Strict Implicit.
Local Open Scope ring_scope.

(* Copies between usable rows permute the usable cells. *)
Section Usable.
Variables (columns : seq column) (n u : nat) (calls : seq copy_call).
Hypothesis un : (u <= n)%N.
Hypothesis husable : List.Forall (fun c => (cc_lr c < u)%N && (cc_rr c < u)%N) calls.
Notation m := (size columns).
Notation T := ('I_m * 'I_u)%type.
Notation nx := (get2 (a_mapping (run_copies (assembly_new n columns) calls).1)).
Notation lk := (linked columns n calls).

Lemma linked_usable c d : lk c d -> [&& (c.1 < m)%N, (c.2 < u)%N, (d.1 < m)%N & (d.2 < u)%N].
Proof.
move=> [cc hc [/and4P [h1 h2 h3 h4] [-> ->]]] /=.
by move/List.Forall_forall: husable => /(_ _ hc) /andP [-> ->]; rewrite !index_mem h1 h2.
Qed.
Lemma clos_usable c d : clos_refl_sym_trans cell lk c d ->
  c = d \/ [&& (c.1 < m)%N, (c.2 < u)%N, (d.1 < m)%N & (d.2 < u)%N].
Proof.
elim=> [p q h|p|p q _ [->|/and4P [h1 h2 h3 h4]]|p q r _ [->|h1] _ [<-|h2]]; try by [left|right].
- by right; exact: linked_usable.
- by right; rewrite h1 h2 h3 h4.
by right; move: h1 h2 => /and4P [-> -> _ _] /and4P [_ _ -> ->].
Qed.

Lemma usable_perm : exists s : T -> T,
  [/\ injective s, forall x : T, nx (vc x) = Some (vc (s x)),
      forall (A : Type) (v : cell -> A), (forall x : T, v (vc (s x)) = v (vc x)) ->
        forall c d, lk c d -> v c = v d &
      forall (A : Type) (v : cell -> A), (forall c d, lk c d -> v c = v d) ->
        forall x : T, v (vc (s x)) = v (vc x)].
Proof.
have [_ [hnx [hinj hclos]]] := C23_copies columns n calls.
have vn (x : T) : ((vc x).1 < m)%N && ((vc x).2 < n)%N.
  by case: x => [[i hi] [r hr]] /=; rewrite hi (leq_trans hr un).
have step (x : T) : exists y : T, nx (vc x) = Some (vc y).
  have [d e vd] := hnx _ (vn x).
  have := (hclos _ _ (vn x) vd).1 (ex_intro _ 1%N e).
  move=> /clos_usable [ed|/and4P [_ _ h3 h4]]; first by exists x; exact: etrans e (congr1 Some (esym ed)).
  by have [y ey] := @vcP m u d h3 h4; exists y; rewrite -ey.
pose s (x : T) : T := odflt x [pick y | nx (vc x) == Some (vc y)].
have hs x : nx (vc x) = Some (vc (s x)).
  rewrite /s; case: pickP => [y /eqP //|h]; have [y e] := step x; by have := h y; rewrite e eqxx.
exists s; split=> //.
- by move=> x y e; apply: (@vc_inj m u); apply: hinj; rewrite ?vn // !hs e.
- move=> A v hv c d h; have /and4P [h1 h2 h3 h4] := linked_usable h.
  have [x ex] := @vcP m u c h1 h2; have [y ey] := @vcP m u d h3 h4.
  have := (hclos (vc x) (vc y) (vn x) (vn y)).2; rewrite -ex -ey => /(_ (rst_step _ _ _ _ h)) [k].
  rewrite ex ey; elim: k x {ex} => [|k IH] x.
    by move=> /= e; case: (congr1 (odflt (0, 0)%N) e) => /val_inj e1 /val_inj e2; congr (v (vc _)); case: (x) (y) e1 e2 => [? ?] [? ?] /= -> ->.
  by rewrite iterSr /= hs => /IH <-; rewrite hv.
move=> A v hv x.
have := (hclos _ _ (vn x) (vn (s x))).1 (ex_intro _ 1%N (hs x)).
by elim=> [p q /hv|p|p q _|p q r _ h1 _ h2] //; rewrite h2 h1.
Qed.
End Usable.

(* the product over the chunks is the product over the cells *)
Lemma prod_chunks (F : fieldType) (len m u : nat) (f : nat -> nat -> F) : (0 < len)%N ->
  \prod_(t < nch len m) \prod_(i < u) \prod_(j <- ch len m t) f j i =
  \prod_(x : 'I_m * 'I_u) f x.1 x.2.
Proof.
move=> len0.
rewrite -(pair_bigA _ (fun (j : 'I_m) (i : 'I_u) => f j i)) /= exchange_big [RHS]exchange_big /=.
apply: eq_bigr => i _; rewrite -(big_mkord xpredT (fun j => f j i)) /index_iota subn0 -(flatten_ch m len0).
by rewrite big_flatten big_map -(big_mkord xpredT (fun t => \prod_(j <- ch len m t) f j i)) /index_iota subn0.
Qed.

Section Statements.
Variables (F B : fieldType) (G : lmodType F) (E : env B G) (pk : pkey G).
Notation vk := (pk_vk pk).
Notation cols := (permutation (vk_cs vk)).
Notation m := (size cols).
Notation bf := (blinding_factors (vk_cs vk)).
Variables (k : nat) (omega : F) (order : nat).
Notation n := (2 ^ k)%N.
Notation u := (n - (bf + 1))%N.
Notation label := (label (e_delta E) omega).
Hypothesis odd_order : odd order.
Hypothesis hdelta : order.-primitive_root (e_delta E).
Hypothesis homega : n.-primitive_root omega.
Hypothesis hm : (m <= order)%N.
Hypothesis hdeg : (2 < vk_cs_degree vk)%N.
Hypothesis hbf : (bf + 1 <= n)%N.
Variable calls : seq copy_call.
Hypothesis husable : List.Forall (fun c => (cc_lr c < u)%N && (cc_rr c < u)%N) calls.
Notation mapping := (a_mapping (run_copies (assembly_new n cols) calls).1).

(* The leaves the expressions are built over: P i is the polynomial of leaf i. *)
Record leaves_ok (v : cell -> F) (P : nat -> {poly F}) (advice fixed instance sigma : seq nat)
    (l0 l_blind l_last : nat) : Prop := Leaves {
  lv_l0 : forall i, (i < n)%N -> (P l0).[omega ^+ i] = (i == 0%N)%:R;
  lv_l_last : forall i, (i < n)%N -> (P l_last).[omega ^+ i] = (i == u)%:R;
  lv_l_blind : forall i, (i < n)%N -> (P l_blind).[omega ^+ i] = (u < i)%:R;
  lv_cols : forall j, (j < m)%N -> exists2 leaf,
    any_of advice fixed instance (nth (Advice, 0%N) cols j) = Some leaf &
    forall i, (i < u)%N -> (P leaf).[omega ^+ i] = v (j, i);
  lv_nsigma : size sigma = m;
  lv_sigma : forall j i c, (j < m)%N -> (i < u)%N -> get2 mapping (j, i) = Some c ->
    (P (nth 0%N sigma j)).[omega ^+ i] = label c }.

Lemma un : (u <= n)%N. Proof. exact: leq_subr. Qed.
Lemma len0 : (0 < vk_cs_degree vk - 2)%N. Proof. by rewrite subn_gt0. Qed.
Lemma label_injT : injective (fun x : 'I_m * 'I_u => label (vc x)).
Proof.
move=> [[a ha] [b hb]] [[a' ha'] [b' hb']] e; apply: vc_inj.
apply: (C24_labels_distinct odd_order hdelta homega) e => /=.
- exact: leq_trans hm.
- exact: leq_trans hm.
- exact: leq_trans un.
exact: leq_trans un.
Qed.

Lemma lv_fun v P advice fixed instance sigma l0 l_blind l_last :
  leaves_ok v P advice fixed instance sigma l0 l_blind l_last ->
  exists2 lf, forall j, (j < m)%N -> any_of advice fixed instance (nth (Advice, 0%N) cols j) = Some (lf j) &
  forall j i, (j < m)%N -> (i < u)%N -> (P (lf j)).[omega ^+ i] = v (j, i).
Proof.
move=> h; exists (fun j => odflt 0%N (any_of advice fixed instance (nth (Advice, 0%N) cols j))).
  by move=> j /(lv_cols h) [l -> _].
by move=> j i /(lv_cols h) [l -> hl] hi; exact: hl.
Qed.

(* Soundness.  For each assignment of the permuted columns there are few bad betas, and for
   each beta few bad gammas; outside of them, if the expressions vanish on the domain then
   all linked cells have equal values, whatever product polynomials the prover used. *)
Theorem C26_permutation_sound : forall v : cell -> F,
  exists (bad_beta : F -> Prop) (bad_gamma : F -> F -> Prop),
  at_most ((m * u) * (m * u)) bad_beta /\ (forall beta, at_most (2 * (m * u)) (bad_gamma beta)) /\
  forall beta gamma (sets : seq (pset F)) P advice fixed instance sigma l0 l_blind l_last asts,
  leaves_ok v P advice fixed instance sigma l0 l_blind l_last ->
  size sets = size (chunks (vk_cs_degree vk - 2) cols) ->
  perm_construct E pk sets advice fixed instance sigma l0 l_blind l_last beta gamma = Some asts ->
  vanish_on_domain omega n P asts ->
  ~ bad_beta beta -> ~ bad_gamma beta gamma ->
  forall c d, linked cols n calls c d -> v c = v d.
Proof.
move=> v; have [s [s_inj hs hv _]] := usable_perm cols un husable.
pose vT (x : 'I_m * 'I_u) := v (vc x); pose idT (x : 'I_m * 'I_u) := label (vc x).
exists (bad_beta vT idT s), (bad_gamma vT idT s).
have cT : #|{: 'I_m * 'I_u}| = (m * u)%N by rewrite card_prod !card_ord.
split; first by rewrite -cT; exact: bad_beta_few.
split; first by move=> beta; rewrite -cT; exact: bad_gamma_few.
move=> beta gamma sets P advice fixed instance sigma l0 l_blind l_last asts lv hsz hc hvan nb ng.
have [lf hlf vlf] := lv_fun lv; have l0' := len0.
have hsz' : size sets = nch (vk_cs_degree vk - 2) m by rewrite hsz (size_chunks _ (m := m)).
move: hc; rewrite (perm_constructE E l0' _ l_blind l_last hsz' (lv_nsigma lv) hlf) => -[easts].
move: hvan; rewrite -easts; have R := perm_asts_rows E homega hbf l0' sets sigma lf beta gamma (lv_l0 lv) (lv_l_last lv) (lv_l_blind lv).
move=> /R [r1 r2 r3 r4].
case: (posnP m) => [m0|m0].
  by move=> c d /(linked_usable husable) /and4P [+ _ _ _]; rewrite m0.
apply: hv.
apply: (cells_sound label_injT (r2 m0) _ nb ng).
have := chain_chunks (r1 m0) r3 r4; rewrite nch_gt0 // => /(_ m0).
rewrite (prod_chunks m u (fun j i => vrow omega lf P j i + beta * srow omega sigma P j i + gamma)) //.
rewrite (prod_chunks m u (fun j i => vrow omega lf P j i + beta * (e_delta E ^+ j * omega ^+ i) + gamma)) // /den /num.
rewrite (eq_bigr (fun x : 'I_m * 'I_u => vT x + beta * idT (s x) + gamma)); last first.
  move=> [[a ha] [b hb]] _; rewrite /vrow /srow /= vlf //.
  by rewrite (lv_sigma lv ha hb (hs (Ordinal ha, Ordinal hb))).
move=> ->; apply: eq_bigr => -[[a ha] [b hb]] _; by rewrite /vrow /= vlf.
Qed.
End Statements.
Print Assumptions C26_permutation_sound.

Lemma Forall_nthP (A : Type) (d : A) (Q : A -> Prop) (s : seq A) :
  List.Forall Q s <-> forall i, (i < size s)%N -> Q (nth d s i).
Proof.
split; first by elim=> [//|x l qx _ IH] [|i] //=; exact: IH.
elim: s => [|x l IH] h; first exact: List.Forall_nil.
by apply: List.Forall_cons; [exact: (h 0%N)|apply: IH => i; exact: (h i.+1)].
Qed.

Section Completeness.
Variables (F B : fieldType) (G : lmodType F) (E : env B G) (ps : params G).
Hypotheses (ok : env_ok E) (pok : params_ok E ps).
Variables (qd : nat) (d : domain F) (pk : pkey G).
Hypothesis hd : domain_new (e_rou E) (e_zeta E) (e_S E) qd (p_k ps) = Some d.
Notation vk := (pk_vk pk).
Hypothesis hdom : vk_domain vk = d.
Notation cols := (permutation (vk_cs vk)).
Notation m := (size cols).
Notation bf := (blinding_factors (vk_cs vk)).
Notation n := (2 ^ p_k ps)%N.
Notation u := (n - (bf + 1))%N.
Notation omega := (d_omega d).
Notation label := (label (e_delta E) omega).
Hypothesis hdeg : (2 < vk_cs_degree vk)%N.
Hypothesis hbf : (bf + 1 <= n)%N.
Variable calls : seq copy_call.
Hypothesis husable : List.Forall (fun c => (cc_lr c < u)%N && (cc_rr c < u)%N) calls.
Notation mapping := (a_mapping (run_copies (assembly_new n cols) calls).1).
(* the permutation part of the proving key is the one keygen builds from these copies *)
Hypothesis hkey : perm_build_pk E ps d mapping m =
  Some (pk_permutations pk, pk_perm_polys pk, pk_perm_cosets pk).
(* the column values: n in each column, of which the usable ones are v *)
Variables (advice fixed instance : seq (seq F)) (v : cell -> F).
Hypothesis hvals : forall j, (j < m)%N -> exists2 vec,
  any_of advice fixed instance (nth (Advice, 0%N) cols j) = Some vec &
  size vec = n /\ forall i, (i < u)%N -> vec`_i = v (j, i).
(* all copy constraints are satisfied *)
Definition copies_hold : Prop := forall c c', linked cols n calls c c' -> v c = v c'.

(* beta and gamma for which some denominator is zero *)
Definition degenerate (beta gamma : F) : Prop := exists (j i : nat) (c : cell),
  [/\ (j < m)%N, (i < u)%N, get2 mapping (j, i) = Some c & v (j, i) + beta * label c + gamma = 0].

Lemma degenerate_few beta : at_most (m * u) (degenerate beta).
Proof.
have [s [_ hs _ _]] := usable_perm cols (leq_subr (bf + 1) n) husable.
move=> l ul hl.
have cT : #|{: 'I_m * 'I_u}| = (m * u)%N by rewrite card_prod !card_ord.
pose f (x : 'I_m * 'I_u) := - (v (vc x) + beta * label (vc (s x))).
have : {subset l <= [seq f x | x <- enum {: 'I_m * 'I_u}]}.
  move=> g /hl [j [i [c [hj hi e h]]]]; apply/mapP; exists (Ordinal hj, Ordinal hi); first by rewrite mem_enum.
  have := hs (Ordinal hj, Ordinal hi); rewrite /f /vc /= e => -[ec].
  by rewrite -ec; apply/eqP; rewrite -addr_eq0 addrC h.
by move=> /(uniq_leq_size ul); rewrite size_map -cardE cT.
Qed.

(* Completeness.  The prover's commit either runs into an I/O error or succeeds; then the
   verifier reads back commitments to the product polynomials.  The expressions can be built
   over the registered polynomials, and if the copy constraints hold they vanish on the
   domain, whatever the blinding values were. *)
Theorem C25_permutation_complete : forall beta gamma polys s,
  wp (perm_commit E ps pk advice fixed instance beta gamma polys) s (fun r s' =>
    [/\ size r.1 = size (chunks (vk_cs_degree vk - 2) cols) /\ extends E ps d polys r.2,
        List.Forall (fun st => (size polys <= s_coset st)%N /\ registered E ps d r.2 (s_poly st) (s_coset st)) r.1,
        (exists2 comms, replays s s' (perm_read_commitments E vk) comms &
           [seq commit E ps (s_poly st) (s_blind st) | st <- r.1] = [seq Some c | c <- comms]) &
        forall P ladvice lfixed linstance sigma l0 l_blind l_last,
        leaves_ok E pk (p_k ps) omega calls v P ladvice lfixed linstance sigma l0 l_blind l_last ->
        List.Forall (fun st => P (s_coset st) = Poly (s_poly st)) r.1 ->
        exists2 asts, perm_construct E pk r.1 ladvice lfixed linstance sigma l0 l_blind l_last beta gamma = Some asts &
          (copies_hold -> ~ degenerate beta gamma -> vanish_on_domain omega n P asts)]).
Proof.
move=> beta gamma polys s.
have hw := ok_omega_prim (dok ok hd).
have [sigma0 [polys0 [cosets0 [ekey [s1 s2 s3 hk]]]]] := C24_build_pk ok pok hd cols calls.
move: ekey; rewrite hkey => -[e1 e2 e3]; subst sigma0 polys0 cosets0.
have l0' : (0 < vk_cs_degree vk - 2)%N by rewrite subn_gt0.
pose vf j := odflt [::] (any_of advice fixed instance (nth (Advice, 0%N) cols j)).
have hvf j : (j < m)%N -> any_of advice fixed instance (nth (Advice, 0%N) cols j) = Some (vf j) /\ size (vf j) = n.
  by move=> /hvals [vec e [sv _]]; rewrite /vf e.
have vfv j i : (j < m)%N -> (i < u)%N -> (vf j)`_i = v (j, i).
  by move=> /hvals [vec e [_ h]] hi; rewrite /vf e h.
have hsz j : (j < m)%N -> size (nth [::] (pk_permutations pk) j) = n by move=> /hk [].
apply: wp_weaken (perm_commit_run ok pok hd hdom hbf beta gamma l0' hvf s1 hsz erefl polys s erefl).
move=> [sets polys'] s' /= [zs [[sz /allP szn] [es ep] rp [z0 zc] zr]].
have nsets : size sets = nch (vk_cs_degree vk - 2) m by rewrite es size_mapi.
have en : nch (vk_cs_degree vk - 2) m = size (chunks (vk_cs_degree vk - 2) cols).
  by rewrite (size_chunks _ (m := m)).
pose z0' := ([::] : seq F, 0 : F).
have nthset t : (t < size sets)%N -> nth (set0 F) sets t = PSet (nth z0' zs t).1 (size polys + t)%N (nth z0' zs t).2.
  by rewrite nsets -sz => ht; rewrite es (nth_mapi _ z0').
have sn t : (t < size sets)%N -> size (nth z0' zs t).1 = n.
  by rewrite nsets -sz => ht; apply/eqP; apply: szn; rewrite mem_nth.
split.
- split; first by rewrite nsets en.
  exists [seq coset_of E d e.1 | e <- zs] => // c /mapP [e he ->]; exists e.1; first by apply/eqP; exact: szn.
  by rewrite (coset_ofE ok hd) //; apply/eqP; exact: szn.
- apply/(Forall_nthP (set0 F)) => t ht; rewrite nthset //=; split; first by rewrite leq_addr.
  split; first exact: sn.
    by rewrite ep size_cat size_map sz -nsets ltn_add2l.
  rewrite (coset_ofE ok hd) ?sn // ep nth_cat ltnNge leq_addr /= addKn.
  by rewrite (nth_map z0') // sz -nsets.
- exists [seq commitment_of ps e.1 e.2 | e <- zs] => //.
  apply: (@eq_from_nth _ None); first by rewrite !size_map nsets sz.
  move=> t; rewrite size_map => ht; have ht' : (t < size zs)%N by rewrite sz -nsets.
  rewrite (nth_map (set0 F)) // (nth_map 0) ?size_map // (nth_map z0') // nthset //=.
  by rewrite commitE // (ps_g pok) sn.
move=> P ladvice lfixed linstance sigma l0 l_blind l_last lv /(Forall_nthP (set0 F)) hP.
have [lf hlf vlf] := lv_fun lv.
eexists; first exact: (perm_constructE E l0' _ l_blind l_last nsets (lv_nsigma lv) hlf).
move=> hcopies ndeg.
apply/(perm_asts_rows E hw hbf l0' sets sigma lf beta gamma (lv_l0 lv) (lv_l_last lv) (lv_l_blind lv)).
have zE t i : (t < nch (vk_cs_degree vk - 2) m)%N -> zrow omega sets P t i = zat d zs t i.
  by rewrite -nsets => ht; rewrite /zrow hP // nthset.
have [sg [sg_inj hsg _ hv]] := usable_perm cols (leq_subr (bf + 1) n) husable.
have nch0 : (0 < m)%N -> (0 < nch (vk_cs_degree vk - 2) m)%N by rewrite nch_gt0.
have sE j i : (j < m)%N -> (i < u)%N -> exists2 c, get2 mapping (j, i) = Some c &
    (nth [::] (pk_permutations pk) j)`_i = label c /\ srow omega sigma P j i = label c.
  move=> hj hi; have [_ _ /(_ i (leq_trans hi (leq_subr _ _))) [c e [ec _]] _] := hk j hj.
  by exists c => //; split=> //; rewrite /srow (lv_sigma lv hj hi e).
have hden t i : (t < nch (vk_cs_degree vk - 2) m)%N -> (i < u)%N ->
   \prod_(q <- ch (vk_cs_degree vk - 2) m t) ((vf q)`_i + beta * (nth [::] (pk_permutations pk) q)`_i + gamma) != 0.
  move=> ht hi; rewrite prodf_seq_neq0; apply/allP => q hq /=; have hq' := mem_ch l0' ht hq.
  rewrite vfv //; have [c e [-> _]] := sE q i hq' hi; apply/eqP => h; apply: ndeg.
  by exists q, i, c.
have hstep t i : (t < nch (vk_cs_degree vk - 2) m)%N -> (i < u)%N ->
  zrow omega sets P t i.+1 * \prod_(q <- ch (vk_cs_degree vk - 2) m t)
     (vrow omega lf P q i + beta * srow omega sigma P q i + gamma) =
  zrow omega sets P t i * \prod_(q <- ch (vk_cs_degree vk - 2) m t)
     (vrow omega lf P q i + beta * (e_delta E ^+ q * omega ^+ i) + gamma).
  move=> ht hi; rewrite !zE // zr // /cfrac -mulrA; congr (_ * _).
  have -> : \prod_(q <- ch (vk_cs_degree vk - 2) m t) (vrow omega lf P q i + beta * srow omega sigma P q i + gamma) =
    \prod_(q <- ch (vk_cs_degree vk - 2) m t) ((vf q)`_i + beta * (nth [::] (pk_permutations pk) q)`_i + gamma).
    apply: eq_big_seq => q hq; have hq' := mem_ch l0' ht hq; rewrite /vrow vlf // vfv //.
    by have [c e [-> ->]] := sE q i hq' hi.
  rewrite mulrC mulrA mulfV ?hden // mul1r.
  by apply: eq_big_seq => q hq; have hq' := mem_ch l0' ht hq; rewrite /vrow vlf // vfv.
have hden' t i : (t < nch (vk_cs_degree vk - 2) m)%N -> (i < u)%N ->
  \prod_(q <- ch (vk_cs_degree vk - 2) m t) (vrow omega lf P q i + beta * srow omega sigma P q i + gamma) != 0.
  move=> ht hi; rewrite (eq_big_seq (fun q => (vf q)`_i + beta * (nth [::] (pk_permutations pk) q)`_i + gamma)) ?hden //.
  by move=> q hq; have hq' := mem_ch l0' ht hq; rewrite /vrow vlf // vfv //; have [c e [-> ->]] := sE q i hq' hi.
have z00 : (0 < m)%N -> zrow omega sets P 0 0 = 1 by move=> m0; rewrite zE ?nch0 // z0.
have zcc t : (t.+1 < nch (vk_cs_degree vk - 2) m)%N -> zrow omega sets P t.+1 0 = zrow omega sets P t u.
  by move=> ht; rewrite !zE ?zc // ltnW.
split=> // m0.
rewrite (chain_end (z00 m0) zcc hstep hden' (nch0 m0)) ?expr1n //.
rewrite (prod_chunks m u (fun j i => vrow omega lf P j i + beta * srow omega sigma P j i + gamma)) //.
rewrite (prod_chunks m u (fun j i => vrow omega lf P j i + beta * (e_delta E ^+ j * omega ^+ i) + gamma)) //.
have := @cells_complete F _ (fun x : 'I_m * 'I_u => v (vc x)) (fun x => label (vc x)) sg sg_inj beta gamma (hv _ v hcopies).
rewrite /den /num => h.
rewrite [RHS](_ : _ = \prod_(x : 'I_m * 'I_u) (v (vc x) + beta * label (vc x) + gamma)); last first.
  by apply: eq_bigr => -[[a ha] [b hb]] _; rewrite /vrow /= vlf.
rewrite -h; apply: eq_bigr => -[[a ha] [b hb]] _; rewrite /vrow /srow /= vlf //.
by rewrite (lv_sigma lv ha hb (hsg (Ordinal ha, Ordinal hb))).
Qed.
End Completeness.
Print Assumptions C25_permutation_complete.

(* Non-vacuity: three columns over F_97, eight rows of which two are usable, two copies; the
   columns are split into two chunks. *)
Definition cs97 : cs F97 :=
  {| num_fixed := 1; num_advice := 2; num_instance := 0; num_selectors := 0; selector_map := [::]; gates := [::];
     advice_queries := [::]; num_advice_queries := [::]; instance_queries := [::]; fixed_queries := [::];
     permutation := [:: (Advice, 0%N); (Advice, 1%N); (Fixed, 0%N)]; lookups := [::]; constants := [::];
     minimum_degree := None |}.
Definition calls97 : seq copy_call :=
  [:: CopyCall (Advice, 0%N) 0 (Advice, 1%N) 1; CopyCall (Advice, 1%N) 1 (Fixed, 0%N) 0].
Definition advice97 (a : F97) : seq (seq F97) := [:: [:: 5%:R; 7%:R; 1; 1; 1; 1; 1; 1]; [:: 3%:R; a; 2%:R; 2%:R; 1; 1; 1; 1]].
Definition fixed97 : seq (seq F97) := [:: [:: 5%:R; 0; 0; 0; 0; 0; 0; 0]].
Definition v97 (c : cell) : F97 := nth 0 (nth [::] (advice97 5%:R ++ fixed97) c.1) c.2.
Definition mapping97 := a_mapping (run_copies (assembly_new 8 (permutation cs97)) calls97).1.
Definition pk97 (d : domain F97) (k : seq (seq F97) * seq (seq F97) * seq (seq F97)) : pkey G97 :=
  PKey (VKey d [::] [::] cs97 4 0) [::] [::] [::] [::] [::] [::] k.1.1 k.1.2 k.2.

(* the run: the last product value at the last usable row is one iff the copies hold *)
Definition perm_run97 (a : F97) : option (seq nat * bool) :=
  if params_new E97 3 is Some ps then
  if domain_new (e_rou E97) (e_zeta E97) (e_S E97) 3 3 is Some d then
  if perm_build_pk E97 ps d mapping97 3 is Some k then
  if perm_commit E97 ps (pk97 d k) (advice97 a) fixed97 [::] 2%:R 3%:R [:: [::]] (Wst [:: 9%N] [:: 1%N] 0) is Ok (r, s) then
    Some ([seq s_coset st | st <- r.1],
          eval_polynomial (s_poly (nth (set0 F97) r.1 1)) (d_omega d ^+ 2) == 1)
  else None else None else None else None.
Example C25_run : perm_run97 5%:R = Some ([:: 1%N; 2%N], true).
Proof. by vm_compute. Qed.
Example C25_run_bad : perm_run97 6%:R = Some ([:: 1%N; 2%N], false).
Proof. by vm_compute. Qed.
(* beta = 2 and gamma = 3 are not degenerate *)
Example C25_nondegenerate :
  if domain_new (e_rou E97) (e_zeta E97) (e_S E97) 3 3 is Some d then
    all (fun c => if get2 mapping97 c is Some c' then v97 c + 2%:R * label (e_delta E97) (d_omega d) c' + 3%:R != 0 else false)
      [seq (j, i) | j <- iota 0 3, i <- iota 0 2] else false.
Proof. by vm_compute. Qed.

(* the hypotheses of both theorems *)
Example C25_C26_hypotheses : exists ps d k, let pk := pk97 d k in
  [/\ params_ok E97 ps, p_k ps = 3%N, domain_new (e_rou E97) (e_zeta E97) (e_S E97) 3 (p_k ps) = Some d,
      perm_build_pk E97 ps d mapping97 3 = Some (pk_permutations pk, pk_perm_polys pk, pk_perm_cosets pk) &
      [/\ forall j, (j < 3)%N -> exists2 vec, any_of (advice97 5%:R) fixed97 [::] (nth (Advice, 0%N) (permutation cs97) j) = Some vec &
            size vec = 8%N /\ forall i, (i < 2)%N -> vec`_i = v97 (j, i),
          forall c c', linked (permutation cs97) 8 calls97 c c' -> v97 c = v97 c',
          List.Forall (fun c => (cc_lr c < 2)%N && (cc_rr c < 2)%N) calls97,
          (8 - (blinding_factors cs97 + 1) = 2)%N &
          exists P, leaves_ok E97 pk 3 (d_omega d) calls97 v97 P [:: 0; 1]%N [:: 2%N] [::] [:: 3; 4; 5]%N 6 7 8]].
Proof.
have [ps eps [pok [ek _]]] := @C11_params_new _ _ _ E97 E97_ok 3 isT isT.
have [d hd] : exists d, domain_new (e_rou E97) (e_zeta E97) (e_S E97) 3 3 = Some d.
  by have [[_ H] _] := C03_domain_new 3 3 constants97; apply: H.
have hd' : domain_new (e_rou E97) (e_zeta E97) (e_S E97) 3 (p_k ps) = Some d by rewrite ek.
have [sg [pl [co [eb [s1 s2 s3 hk]]]]] := C24_build_pk E97_ok pok hd' (permutation cs97) calls97.
rewrite ek in eb hk.
exists ps, d, (sg, pl, co); split; [exact: pok|exact: ek|exact: hd'|exact: eb|]; split; [|move=> c c' [cc [<-|[<-|[]]] [_ [-> ->]]]; by apply/eqP; vm_compute| |by []|].
- move=> j hj; exists (nth [::] (advice97 5%:R ++ fixed97) j); last by split; [case: j hj => [|[|[|]]]|].
  by case: j hj => [|[|[|]]].
- by do 2!constructor.
pose vec (l : nat) : seq F97 := match l with
  | 0%N => nth [::] (advice97 5%:R) 0 | 1%N => nth [::] (advice97 5%:R) 1 | 2%N => nth [::] fixed97 0
  | 3%N => nth [::] sg 0 | 4%N => nth [::] sg 1 | 5%N => nth [::] sg 2
  | 6%N => mkseq (fun i => (i == 0%N)%:R) 8 | 7%N => mkseq (fun i => (2 < i)%N%:R) 8 | _ => mkseq (fun i => (i == 2%N)%:R) 8 end.
have hs j : (j < 3)%N -> size (nth [::] sg j) = 8%N by move=> hj; case: (hk j hj) => h _ _ _; rewrite h.
have hs0 := hs 0%N isT; have hs1 := hs 1%N isT; have hs2 := hs 2%N isT.
have sv l : size (vec l) = 8%N.
  case: l => [|[|[|[|[|[|[|[|l]]]]]]]]; [reflexivity|reflexivity|reflexivity|exact hs0|exact hs1|exact hs2|reflexivity|reflexivity|reflexivity].
have sv' l : size (vec l) = (2 ^ p_k ps)%N by rewrite ek; exact: sv.
exists (fun l => Poly (odflt [::] (lagrange_to_coeff (e_threads E97) d (vec l)))).
have hP l i : (i < 8)%N -> (Poly (odflt [::] (lagrange_to_coeff (e_threads E97) d (vec l)))).[d_omega d ^+ i] = (vec l)`_i.
  have [zp [_ e h _]] := lagrange_facts E97_ok pok hd' (sv' l); rewrite e /=; rewrite ek in h; exact: h.
split; [| | | |by []|].
- move=> i hi; rewrite (hP 6%N i hi) [vec _]/= (nth_mkseq _ _ hi); reflexivity.
- move=> i hi; rewrite (hP 8%N i hi) [vec _]/= (nth_mkseq _ _ hi); reflexivity.
- move=> i hi; rewrite (hP 7%N i hi) [vec _]/= (nth_mkseq _ _ hi); reflexivity.
- move=> j hj; exists j; first by case: j hj => [|[|[|]]].
  by move=> i hi; rewrite hP; [case: j hj => [|[|[|]]]|rewrite (ltn_trans hi)].
move=> j i c hj hi e.
have hi8 : (i < 8)%N by rewrite (ltn_trans hi).
have [_ _ /(_ i hi8) [c' e' [h _]] _] := hk j hj.
have ec : c = c' by have := etrans (esym e) e'; case.
rewrite ec -h (hP _ _ hi8).
clear -hj; case: j hj => [|[|[|j]]] hj; [reflexivity|reflexivity|reflexivity|discriminate hj].
Qed.
