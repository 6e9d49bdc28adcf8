(* C31, C32: the prover and the verifier composed.  The keys are those made by keygen_vk and keygen_pk for
   a configured circuit; the advice columns are those the circuits synthesize. *)
Set Warnings "-notation-overridden,-ambiguous-paths".
From mathcomp Require Import all_ssreflect all_algebra.
From Verif Require Import Util L_Chunks M_Poly L_Poly M_Domain L_Domain P_Domain M_Evaluator S_Evaluator P_Evaluator M_Assigned P_Assigned M_Env M_Transcript
  L_Transcript L_Mono M_Commit S_Commit L_Commit P_Commit L_WP L_WPR M_IPA M_Multiopen P_Multiopen M_Circuit S_Circuit P_Circuit M_Selectors S_Selectors L_Selectors P_Selectors
  M_Copy L_Copy P_Copy M_Keys M_Permutation S_Permutation M_Lookup L_Sigma P_Sigma L_PermCommit P_Permutation S_Plonk L_Expr P_Lookup M_Vanishing P_Vanishing
  M_Plonk M_Value M_Assign M_Keygen M_Mock S_Floor S_Assign L_Assign P_Assign S_Mock L_MockRun P_Prove L_Wpe L_PlonkEval L_PlonkLeaves L_PlonkRun L_PlonkQuot L_PlonkDeg
  L_PlonkKey L_PlonkStages L_PlonkLk L_PlonkPerm L_PlonkCirc L_PlonkQ L_PlonkAfter L_PlonkMain L_PlonkKeygen
  S_Count L_LookupMath.
Import GRing.Theory.
Set Implicit Arguments.
Unset Strict Implicit.
Local Open Scope ring_scope.

Section Plonk.
Variables (F B : fieldType) (G : lmodType F) (E : env B G) (ps : params G).
Hypotheses (ok : env_ok E) (pok : params_ok E ps).
Variable digest : domain F -> seq G -> seq G -> cs F -> F.
Notation n := (2 ^ p_k ps)%N.
(* the circuit: what its configure asked for, its synthesis in key generation, and the keys *)
Variables (ops : seq (cs_op F)) (m0 : cs F) (D : nat) (kg : synth F) (vk : vkey G) (pk : pkey G).
Hypothesis cf : configured (p_k ps) ops m0 D.
Hypothesis hcols : (0 < num_fixed m0 + num_advice m0 + num_instance m0)%N.
Hypothesis hvk : keygen_vk E ps digest m0 kg = Ok vk.
Hypothesis hpk : keygen_pk E ps vk m0 kg = Ok pk.
Notation m := (vk_cs vk).
Notation u := (n - (blinding_factors m + 1))%N.
(* the circuits to be proven, their public inputs, and the advice columns synthesized for them *)
Variables (progs : seq (synth F)) (instances advs : seq (seq (seq F))).
Notation np := (size instances).
Record statement_ok : Prop := StatementOk {
  st_progs : size progs = np;
  st_advs : size advs = np;
  st_synth : forall i, (i < np)%N ->
    synthesize ps vk (nth (SPanic F) progs i) (nth [::] instances i) = Ok (nth [::] advs i);
  st_inst : all (fun i : seq (seq F) => (size i == num_instance m) && all (fun c : seq F => size c <= u)%N i) instances }.
Hypothesis hst : statement_ok.
Notation outcomes := [seq synthesize ps vk ip.1 ip.2 | ip <- zip progs instances].
(* the public inputs padded with 0 to n rows *)
Notation padded_inst i := (map (padded ps) (nth [::] instances i)).

Lemma outcomesE : outcomes = [seq Ok a | a <- advs].
Proof.
have [s1 s2 h _] := hst.
apply: (@eq_from_nth _ Panic) => [|i]; first by rewrite !size_map size_zip s1 s2 minnn.
rewrite size_map size_zip s1 minnn => hi.
rewrite (nth_map (SPanic F, [::])) ?size_zip ?s1 ?minnn // nth_zip // h // (nth_map [::]) //.
by rewrite s2.
Qed.

Lemma syn_inputs : pk_vk pk = vk -> d_n (vk_domain vk) = n -> inputs_ok ps pk advs instances.
Proof.
have [s1 s2 h h4] := hst; move=> epk hn; rewrite /inputs_ok epk s2 eqxx h4 /=.
apply/(all_nthP [::]) => i; rewrite s2 => hi; have := h i hi; rewrite /synthesize /usable_rows; case: ifP => //= _.
case e: witness_run => [adv||] //=; rewrite C10_batch_invert_assigned => -[<-].
move: e; rewrite hn => /C36_prover [tr [_ ws _]]; have [r1 r2] := ws_rect ws; rewrite size_map r1 eqxx /=.
by rewrite all_map; apply/(all_nthP [::]) => c hc /=; rewrite size_map r2 // -r1.
Qed.

(* Some circuit has a lookup which does not hold, for some content of the blinding rows. *)
Definition lookup_fails : Prop := exists i T lk, [/\ (i < np)%N,
  prover_table n u (pk_fixed_values pk) (nth [::] advs i) (padded_inst i) T, List.In lk (lookups m) & ~ lookup_holds n u T lk].

(* C31, for the part before the opening argument.  create_proof does not panic; it fails only when a point to be
   hashed is the identity or a lookup does not hold.  If it succeeds, and its challenge x is no n-th root of unity,
   then verify_proof, given the bytes written, reads exactly those, absorbs the same stream, and has the same
   challenges; its constraint values are those of the prover's constraints at x, in order; its opening queries are
   the prover's in order, with commitments to the prover's polynomials, and the claimed values are theirs, up to an
   error in the value claimed for the quotient polynomial. *)
Record openings_agree (pq : seq (pquery F qkey_eqType)) (vq : seq (vquery B G qkey_eqType)) (err : F) : Prop := OpeningsAgree {
  oa_all : exists (kp : seq (qkey * F)) (dat : qkey -> seq F * F) (cr : qkey -> cref B G),
    [/\ pq = [seq Query (e.1 : qkey_eqType) (dat e.1) e.2 tt | e <- kp],
        vq = [seq Query (e.1 : qkey_eqType) (cr e.1) e.2 ((Poly (dat e.1).1).[e.2] + (if e.1.1 == 8%N then err else 0)) | e <- kp] &
        forall k, k \in map fst kp -> size (dat k).1 = n /\ commits_to E ps (cr k) (dat k)] }.

Record same_run (s s' : wst) (t : ptrace F) (vt : vtrace B G) (err : F) : Prop := SameRun {
  sr_replay : replays s s' (verify_proof_trace E ps vk instances) vt;
  sr_challenges : [/\ vt_theta vt = pt_theta t, vt_beta vt = pt_beta t, vt_gamma vt = pt_gamma t, vt_y vt = pt_y t & vt_x vt = pt_x t];
  sr_constraints : exists2 polys, sequence [seq coeff_to_extended (e_threads E) (vk_domain vk) p | p <- polys] = Some (pt_polys t) &
    vt_expressions vt = [seq expr_at (d_omega (vk_domain vk)) (nth 0 (map Poly polys)) (pt_x t) a | a <- pt_expressions t];
  sr_openings : openings_agree (pt_queries t) (vt_queries vt) err }.

(* everything at once, for a table T of every circuit *)
Lemma runs s : exists tr, [/\ pk_vk pk = vk, performed (fun _ _ => unknown) kg = Ok tr,
  key_ok E ps (vk_domain vk) pk (copies tr),
  (forall c, List.In c (copies tr) -> (cc_lc c \in permutation m) && (cc_rc c \in permutation m)) &
  wpe (fun e => e = EIo \/ e = EConstraintSystemFailure /\ lookup_fails)
    (create_proof_trace E ps pk outcomes instances) s
    (post E ps (vk_domain vk) pk (copies tr) advs instances s)].
Proof.
have [tr [epk htr hk [new fr] hcalls]] := keygen_key_ok ok pok cf hcols hvk hpk.
have hn : d_n (vk_domain vk) = n by move: (ko_new hk) => /(dok ok)/L_Domain.ok_n.
exists tr; split=> //.
  by move=> c /hcalls /and4P [h1 h2 _ _]; have [_ _ _ _ [-> _ _]] := fr; rewrite h1 h2.
rewrite outcomesE; apply: (main_run ok pok hk); first exact: (syn_inputs epk hn).
  by left.
move=> i T lk hi hT hl hf; right; split=> //; exists i, T, lk; rewrite -epk; split=> //.
Qed.

Theorem C31_same_run s :
  match create_proof_trace E ps pk outcomes instances s with
  | Panic => False
  | Err e => e = EIo \/ e = EConstraintSystemFailure /\ lookup_fails
  | Ok (t, s') => pt_x t ^+ n != 1 -> exists vt err, same_run s s' t vt err
  end.
Proof.
have [tr [epk _ hk _]] := runs s; rewrite /wpe; case: create_proof_trace => [[t s']|e|] //.
move=> [_ h] hx; have [vt [pcs [dat [cr [err [h1 h2 [[hc1 hc2] h3] [kp [h4 h5 h6]] _]]]]]] := h hx.
exists vt, err; rewrite epk in h1; split=> //.
  exists pcs => //; rewrite hc1; apply: sequence_map => p hp; apply: (coset_ofE ok (ko_new hk)).
  exact/eqP/(allP hc2).
by split; exists kp, dat, cr.
Qed.

(* C32.  The challenges for which a denominator of the permutation or of a lookup argument vanishes. *)
Definition exceptional (calls : seq copy_call) (T : any -> nat -> nat -> F) (theta beta gamma : F) : Prop :=
  degenerate E ps (vk_domain vk) pk calls
    (fun c : cell => let col := nth (Advice, 0%N) (permutation m) c.1 in T col.1 col.2 c.2) beta gamma \/
  exists2 lk, List.In lk (lookups m) & lk_degenerate ps pk T lk theta beta gamma.

Theorem C32_complete s s' : create_proof E ps pk outcomes instances s = Ok (tt, s') ->
  exists t s1 tr (T : nat -> any -> nat -> nat -> F), [/\
    create_proof_trace E ps pk outcomes instances s = Ok (t, s1),
    performed (fun _ _ => unknown) kg = Ok tr,
    forall i, (i < np)%N -> prover_table n u (pk_fixed_values pk) (nth [::] advs i) (padded_inst i) (T i) &
    (forall i, (i < np)%N -> satisfied n u m (copies tr) (T i)) ->
    pt_x t ^+ n != 1 ->
    (forall i, (i < np)%N -> ~ exceptional (copies tr) (T i) (pt_theta t) (pt_beta t) (pt_gamma t)) ->
    exists x3, squeezed E s1 s' x3 /\
    exists2 proof, w_out s' = w_out s ++ proof & forall rest,
      verify_proof E ps vk instances (Rst (w_abs s) (proof ++ rest)) =
      if x3 \in [seq q_point q | q <- pt_queries t] then Panic else Ok (tt, Rst (w_abs s') rest)].
Proof.
have [tr [epk htr hk hcl hw]] := runs s; rewrite /create_proof; unfold mbind at 1.
move: hw; rewrite /wpe; case et: create_proof_trace => [[t s1]|e|] // [hT h] hp.
exists t, s1, tr, (tab pk (pt_instance t) (pt_advice t)); split=> //; first by rewrite epk in hT.
move=> hsat hx hex.
have [vt [pcs [dat [cr [err [h1 _ _ [kp [h4 h5 h6]] herr]]]]]] := h hx.
have {herr} e0 : err = 0.
  apply: herr => i hi; have [sg sl sc] := hsat i hi; have ne := hex i hi; rewrite /good_circuit epk; split=> //.
  - move=> c c' [cc hcc [_ [-> ->]]]; have /andP [c1 c2] := hcl cc hcc; rewrite epk in c1 c2 *.
    by rewrite /cell_val /= epk !nth_index //; apply: sc.
  - by move=> hdg; apply: ne; left; move: hdg; rewrite /cell_val epk.
  - move=> j hj hdg; apply: ne; right; exists (nth (Lookup [::] [::]) (lookups m) j) => //.
    by elim: (lookups m) j hj {hdg} => //= l ls IH [|j] hj; [left|right; apply: IH].
have hmo : mo_create_proof E ps [seq Query (e.1 : qkey_eqType) (dat e.1) e.2 tt | e <- kp] s1 = Ok (tt, s').
  by move: hp; rewrite /rbind; cbn [fst snd]; rewrite h4 /mmap_err /map_err; case: mo_create_proof => [[[] s2]|//|//] [->].
have k0 : (0 < p_k ps)%N by have := k_n hk; case: (p_k ps).
have hnew : stands_for E ps msm_new 0 by exists [::].
have pn := ps_n pok.
have hs k : k \in map fst kp -> size (dat k).1 = p_n ps by move=> /h6 []; rewrite pn.
have hc k : k \in map fst kp -> commits_to E ps (cr k) (dat k) by move=> /h6 [].
have [x3 [sq [bytes eb hd]]] := C17_multiopen_complete ok pok k0 hs hc hnew hmo.
exists x3; split=> //; have [b1 eb1 hr] := h1.
exists (b1 ++ bytes); first by rewrite eb eb1 catA.
move=> rest; rewrite /verify_proof -catA; unfold mbind at 1; rewrite -epk hr; unfold rbind at 1; cbn [fst snd].
have -> : [seq q_point q | q <- pt_queries t] = map snd kp by rewrite h4 -map_comp.
have := hd rest; rewrite /mo_decide.
have -> : vt_queries vt = [seq Query (e.1 : qkey_eqType) (cr e.1) e.2 (Poly (dat e.1).1).[e.2] | e <- kp].
  by rewrite h5; apply: eq_map => e; rewrite /claim_of e0 if_same addr0.
rewrite /mbind /mmap_err; case: mo_verify_proof => [[gd st]|e|] /=; try by case: ifP.
rewrite /mlift; case: use_challenges => [ms|] /=; last by case: ifP.
case: msm_eval => [b|] /=; last by case: ifP.
by case: ifP => // _ [-> ->].
Qed.

(* Few challenges are exceptional: whatever the table and theta, for all but (number of lookups) * u values of beta
   there are at most ((number of columns in copies) + (number of lookups)) * u such values of gamma. *)
Theorem C32_exceptional_few tr T theta : performed (fun _ _ => unknown) kg = Ok tr ->
  exists2 bad : seq F, (size bad <= size (lookups m) * u)%N &
  forall beta, beta \notin bad ->
    at_most ((size (permutation m) + size (lookups m)) * u) (exceptional (copies tr) T theta beta).
Proof.
have [tr' [epk htr hk _ _]] := keygen_key_ok ok pok cf hcols hvk hpk; rewrite htr => -[<-].
pose inp (lk : lookup F) i := compress theta [seq row_value n T i e | e <- lk_input lk].
pose tbl (lk : lookup F) i := compress theta [seq row_value n T i e | e <- lk_table lk].
pose bad (f : lookup F -> nat -> F) := flatten [seq [seq - f lk i | i <- iota 0 u] | lk <- lookups m].
have sb f : (size (bad f) <= size (lookups m) * u)%N.
  by rewrite /bad; elim: (lookups m) => //= l ls IH; rewrite size_cat size_map size_iota mulSn leq_add2l.
have inb f lk i : List.In lk (lookups m) -> (i < u)%N -> - f lk i \in bad f.
  move=> + hi; rewrite /bad; elim: (lookups m) => //= l ls IH [->|/IH h]; rewrite mem_cat ?h ?orbT //.
  by apply/orP; left; apply/mapP; exists i; rewrite ?mem_iota.
exists (bad inp) => // beta hb.
have h1 : at_most (size (lookups m) * u) (fun gamma : F => gamma \in bad tbl).
  by move=> l ul hl; apply: leq_trans (sb tbl); apply: uniq_leq_size.
have uk : (n - (blinding_factors (vk_cs (pk_vk pk)) + 1))%N = u by rewrite epk.
have h2 := @degenerate_few _ _ _ E ps (vk_domain vk) pk (copies tr') (ko_calls hk)
  (fun c : cell => let col := nth (Advice, 0%N) (permutation m) c.1 in T col.1 col.2 c.2) beta.
have := at_most_or h1 h2; rewrite epk -mulnDl addnC; apply: at_most_weak => // gamma [|[lk hl [i]]].
  by right.
rewrite uk => hi [e|e]; last by left; rewrite (_ : gamma = - tbl lk i) ?inb //; apply/eqP; rewrite -addr_eq0 addrC e.
by case/negP: hb; rewrite (_ : beta = - inp lk i) ?inb //; apply/eqP; rewrite -addr_eq0 addrC e.
Qed.
End Plonk.

(* Circuits accepted by MockProver. *)
Section Mock.
Variables (F B : fieldType) (G : lmodType F) (E : env B G) (ps : params G).
Hypotheses (ok : env_ok E) (pok : params_ok E ps).
Variable digest : domain F -> seq G -> seq G -> cs F -> F.
Notation n := (2 ^ p_k ps)%N.
Variables (ops : seq (cs_op F)) (m0 : cs F) (D : nat) (kg : synth F) (vk : vkey G) (pk : pkey G).
Hypothesis cf : configured (p_k ps) ops m0 D.
Hypothesis hcols : (0 < num_fixed m0 + num_advice m0 + num_instance m0)%N.
Hypothesis hvk : keygen_vk E ps digest m0 kg = Ok vk.
Hypothesis hpk : keygen_pk E ps vk m0 kg = Ok pk.
Notation m := (vk_cs vk).
Variables (progs : seq (synth F)) (instances : seq (seq (seq F))).
Notation np := (size instances).
Notation prog i := (nth (SPanic F) progs i).
Notation inst i := (nth [::] instances i).
(* the order of field elements MockProver sorts by *)
Variable lt : rel F.
Hypotheses (lt_irr : irreflexive lt) (lt_trans : transitive lt) (lt_total : forall x y, x != y -> lt x y || lt y x).
(* every circuit is accepted, asks only for instance values which were given, and makes the calls that the circuit
   given to key generation makes *)
Hypothesis hprogs : size progs = np.
Hypothesis hmock : forall i, (i < np)%N -> exists2 pr, mock_run (p_k ps) m0 (prog i) (inst i) = Ok pr & verify lt pr = Some [::].
Hypothesis hprov : forall i, (i < np)%N -> queries_provided (inst i) (prog i).
Hypothesis hsame : forall i, (i < np)%N -> same_calls (instance_of (inst i)) (prog i) kg.
Notation outcomes := [seq synthesize ps vk ip.1 ip.2 | ip <- zip progs instances].

Lemma accepted tr : performed (fun _ _ => unknown) kg = Ok tr -> exists advs, statement_ok ps vk progs instances advs /\
  forall i T, (i < np)%N -> prover_table n (n - (blinding_factors m + 1)) (pk_fixed_values pk) (nth [::] advs i) (map (padded ps) (inst i)) T ->
    satisfied n (n - (blinding_factors m + 1)) m (copies tr) T.
Proof.
move=> htr; have [tr' [epk htr' hk [new fr] _]] := keygen_key_ok ok pok cf hcols hvk hpk.
have ebf : blinding_factors m = blinding_factors m0 by have [_ _ _ [_ e _] _] := fr; rewrite /blinding_factors e.
have hn : d_n (vk_domain vk) = n by move: (ko_new hk) => /(dok ok)/L_Domain.ok_n.
have hdom : create_domain E ps m0 = Some (vk_domain vk).
  move: hvk; rewrite /keygen_vk; case: create_domain => [d|] //=; case: assemble => //= a.
  case: fixed_columns => //= fm; case: perm_build_vk => //= pc; case: (sequence _) => //= fc.
  by rewrite /vk_from_parts; case: cs_degree => //= dg [<-].
have key i : (i < np)%N -> [/\ exists2 adv, synthesize ps vk (prog i) (inst i) = Ok adv &
      forall T, prover_table n (n - (blinding_factors m + 1)) (pk_fixed_values pk) adv (inst i) T -> satisfied n (n - (blinding_factors m + 1)) m (copies tr) T,
    size (inst i) = num_instance m & all (fun c : seq F => size c <= n - (blinding_factors m + 1))%N (inst i)].
  move=> hi; have [pr h1 h2] := hmock hi.
  have [a [fixed [m' [adv [tri [ha hf hperf h3 h4]]]]]] :=
    C40_accepted_can_be_proven digest cf lt_irr lt_trans lt_total h1 h2 (hprov hi) (hsame hi) (ps_n pok) hn hdom.
  have [em hs hfix] := h3 vk hvk; split.
  - exists adv => // T hT; have [tr2 htr2 hal] := performed_alike (hsame hi) hperf.
    move: htr2; rewrite htr => -[e]; rewrite e -(alike_copies hal) em; apply: h4.
    by rewrite -(hfix pk hpk) -em.
  - have [u' [ins [t' [s' [polys mr]]]]] := mock_runP h1; rewrite (mn_size mr).
    by have [_ _ [_ -> _] _ _] := fr.
  - have [u' [ins [t' [s' [polys mr]]]]] := mock_runP h1; have [_ hu] := andP (u_n mr).
    have [_ h5 _] := mock_instances (mn_inst mr) hu; rewrite ebf -(mn_u mr).
    by apply/(all_nthP [::]) => c /h5.
pose advs := [seq (if synthesize ps vk ip.1 ip.2 is Ok a then a else [::]) | ip <- zip progs instances].
have sz : size (zip progs instances) = np by rewrite size_zip hprogs minnn.
have nadv i : (i < np)%N -> nth [::] advs i = if synthesize ps vk (prog i) (inst i) is Ok a then a else [::].
  by move=> hi; rewrite (nth_map (SPanic F, [::])) ?sz // nth_zip.
exists advs; split.
  split; rewrite ?size_map ?sz //.
    by move=> i hi; rewrite nadv //; have [[adv -> _] _ _] := key i hi.
  by apply/(all_nthP [::]) => i hi; have [_ -> ->] := key i hi; rewrite eqxx.
move=> i T hi; rewrite nadv //; have [[adv -> h] _ hsz] := key i hi; case=> t1 t2 t3; apply: h; split=> //.
move=> c row hc hr; rewrite t3 ?size_map // (nth_map [::]) // /padded nth_cat; case: ltnP => // hle.
by rewrite nth_nseq if_same nth_default.
Qed.

(* The proof of circuits accepted by MockProver.  It fails only when a point to be hashed is the identity or in the
   opening argument, and if it succeeds it is accepted, with the same exceptions as in C32_complete. *)
Theorem C32_mock_accepted s :
  (match create_proof_trace E ps pk outcomes instances s with Ok _ => True | Err e => e = EIo | Panic => False end) /\
  forall s', create_proof E ps pk outcomes instances s = Ok (tt, s') ->
  exists t s1 tr (T : nat -> any -> nat -> nat -> F), [/\
    create_proof_trace E ps pk outcomes instances s = Ok (t, s1),
    performed (fun _ _ => unknown) kg = Ok tr,
    forall i, (i < np)%N -> exists2 adv, synthesize ps vk (prog i) (inst i) = Ok adv &
      prover_table n (n - (blinding_factors m + 1)) (pk_fixed_values pk) adv (map (padded ps) (inst i)) (T i) &
    pt_x t ^+ n != 1 ->
    (forall i, (i < np)%N -> ~ exceptional E ps vk pk (copies tr) (T i) (pt_theta t) (pt_beta t) (pt_gamma t)) ->
    exists x3, squeezed E s1 s' x3 /\
    exists2 proof, w_out s' = w_out s ++ proof & forall rest,
      verify_proof E ps vk instances (Rst (w_abs s) (proof ++ rest)) =
      if x3 \in [seq q_point q | q <- pt_queries t] then Panic else Ok (tt, Rst (w_abs s') rest)].
Proof.
have [tr [epk htr hk _ _]] := keygen_key_ok ok pok cf hcols hvk hpk.
have [advs [hst hsat]] := accepted htr; split.
  have := C31_same_run ok pok cf hcols hvk hpk hst s; case: create_proof_trace => [[t s']|e|] // [//|[_ [i [T [lk [hi hT hl hf]]]]]].
  case: hf; have [_ sl _] := hsat i T hi hT.
  have [j hj <-] : exists2 j, (j < size (lookups m))%N & nth (Lookup [::] [::]) (lookups m) j = lk.
    elim: (lookups m) hl => //= l ls IH [->|/IH [j hj ej]]; first by exists 0%N.
    by exists j.+1.
  by apply: (sl j); rewrite (getE (Lookup [::] [::])).
move=> s' h; have [t [s1 [tr' [T [h1 h2 h3 h4]]]]] := C32_complete ok pok cf hcols hvk hpk hst h.
exists t, s1, tr', T; split=> // [i hi|hx hex].
  by exists (nth [::] advs i); [exact: (st_synth hst)|exact: h3].
by apply: h4 => // i hi; move: h2; rewrite htr => -[<-]; exact: hsat (h3 i hi).
Qed.
End Mock.
Print Assumptions C31_same_run.
Print Assumptions C32_complete.
Print Assumptions C32_exceptional_few.
Print Assumptions C32_mock_accepted.
