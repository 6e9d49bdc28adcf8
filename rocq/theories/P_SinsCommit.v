(* C61: Sinsemilla commitments are M + [r] R, for every table (soundness) and for an honest prover (completeness). *)
Set Warnings "-notation-overridden,-ambiguous-paths".
From mathcomp Require Import all_ssreflect all_algebra.
From Verif Require Import FieldTac Util M_Env M_Assigned P_Assigned M_Circuit S_Circuit M_Selectors M_Value M_Region S_Region
  M_Layout S_Layout M_Utilities L_Region L_Gadget M_Ecc S_Curve L_Curve L_Group L_Multiples P_Ecc P_CondSwap
  P_Bits P_RangeCheck M_EccMul P_EccMul L_EccMul S_Digits M_Poly P_Poly P_EccMulSound M_Sinsemilla S_Sinsemilla L_Sinsemilla P_Sinsemilla
  P_SinsemillaComplete P_MerkleComplete L_EccMulComplete M_EccFixed P_EccFixed P_EccFixedComplete M_SinsCommit.
Import GRing.Theory.
Set Implicit Arguments.
Unset Strict Implicit.
Local Open Scope ring_scope.
Local Arguments padd : simpl never.
Local Arguments pmul : simpl never.

(* Zcash protocol specification, section 5.4.8.4: SinsemillaCommit, from the words of the message and the integer r *)
Definition commit_spec (F : fieldType) (S : nat -> F * F) (Q R : F * F) (words : seq nat) (r : nat) : option (point F) :=
  omap (fun M => padd (Some M) (pmul r (Some R))) (hash_to_point_spec S Q words).

Section Curve.
Variables (F : fieldType) (b : F) (gens : seq (F * F)).
Hypothesis hc : good_curve b.
Hypothesis hS : all (fun P => on_curve b (Some P)) gens.
Lemma inc_add_on (P Q A : F * F) : on_curve b (Some P) -> on_curve b (Some Q) -> inc_add P Q = Some A -> on_curve b (Some A).
Proof. by move=> hP hQ; rewrite /inc_add; case: ifP => // _ <-; apply: (padd_on_curve hc). Qed.
Lemma hash_on words Q A : all (fun w => w < size gens)%N words -> on_curve b (Some Q) ->
  hash_to_point_spec (nth (0, 0) gens) Q words = Some A -> on_curve b (Some A).
Proof.
elim: words Q => [|w ws IH] Q /=; first by move=> _ hQ [<-].
move=> /andP[hw hws] hQ; case e: (sins_step _ Q) => [P|//]; apply: IH => //; move: e; rewrite /sins_step.
case e1: (inc_add Q _) => [R|//]; apply: inc_add_on => //; apply: (inc_add_on hQ _ e1); exact: (all_nthP (0, 0) hS).
Qed.
Lemma words_small pf K T place (message : seq (piece F)) : size gens = (2 ^ K)%N ->
  all (fun w => w < size gens)%N (message_words pf K T place message).
Proof.
move=> ->; rewrite /message_words; elim: message => //= m l IH; rewrite all_cat IH andbT.
by apply/allP => w /mapP[i _ ->]; rewrite ltn_mod expn_gt0.
Qed.
End Curve.

Section Sound.
Variables (F : fieldType) (b : F) (pf : prime_field F) (p : nat) (Fs : fieldType) (pfs : prime_field Fs) (q wb nw K : nat) (gens : seq (F * F)).
Variables (sc : sins_config) (fc : full_config) (Q R : F * F) (base : fixed_point F).
Hypothesis hc : good_curve b.
Hypothesis pok : prime_field_ok pf p.
Hypothesis qok : prime_field_ok pfs q.
Hypothesis fb : fixed_base_ok b pfs q wb nw R base.
Hypothesis wf : windows_fit q wb nw.
Hypothesis hp : (2 ^ wb <= p)%N.
Hypothesis hs : size (fx_lagrange (fu_super fc)) = (2 ^ wb)%N.
Let two0 := gc_char hc.
Let S := nth (0, 0) gens.
Hypothesis hQ : on_curve b (Some Q).
Hypothesis hgen : all (fun P => on_curve b (Some P)) gens.
Hypothesis hgens : size gens = (2 ^ K)%N.
Variables (T : table F) (place : nat -> int) (inst : nat -> nat -> value F) (usable : int -> Prop).
Hypothesis hfix : gates_hold T (full_gates b wb fc ++ inc_gates F (fx_inc (fu_super fc)) ++ add_gates F (fx_add (fu_super fc))).
Hypothesis hsins : gates_hold T (sins_gates F sc).
Hypothesis hlook : looked_up T usable (sins_lookup K gens sc) (sins_columns sc).
Hypothesis htab : generator_table K gens T sc usable.
Hypothesis huse : forall row, t_selector T (q_s1 sc) row -> usable row.

(* the pieces fit, the running sums are theirs, and for some r in the windows' range the point is the commitment, if defined *)
Definition commit_facts (message : seq (piece F)) (res : ecpoint F) (zss : seq (seq (acell F))) : Prop :=
  [/\ all (fun m => (piece_int pf T place m < 2 ^ (K * pc_words m))%N) message,
      [seq [seq cell_value T place (ac_cell a) | a <- zs] | zs <- zss]
        = [seq [seq (piece_int pf T place m %/ 2 ^ (K * j))%N%:R | j <- iota 0 (pc_words m)] | m <- message] &
      exists2 r, (r < 2 ^ (wb * nw))%N & forall C, commit_spec S Q R (message_words pf K T place message) r = Some C -> point_in T place res C].
Lemma commit_lsound message r : (0 < size message)%N -> all (fun m => (pc_words m * K < pf_num_bits pf)%N) message ->
  lsound T place inst (commit pf pfs q wb nw K gens sc fc (Some Q) base message r) (fun t => commit_facts message t.1 t.2).
Proof.
move=> m0 hm; have [_ /gates_cat[_ g3]] := gates_cat hfix.
apply: lsound_bind => r1 [blind ws] r2 e1 e2.
have [ks [sk hk _ hb]] := C57_mul_fixed_sound hc pok qok fb wf hp hs e1 e2 hfix.
apply: lsound_bind => r3 [M zss] r4 e3 e4.
have [f1 f2 f3] := C54_hash_to_point_sound pok two0 hsins hlook htab huse m0 hm e3 e4.
have hr : (dval (2 ^ wb) ks < 2 ^ (wb * nw))%N by rewrite expnM -sk; apply: dval_lt.
have hon : on_curve b (pmul (dval (2 ^ wb) ks) (Some R)) by apply: (pmul_on hc); exact: (fb_curve fb).
apply: lsound_bind => r5 s r6 e5 e6; apply: lsound_ret; split=> //; exists (dval (2 ^ wb) ks) => // C.
rewrite /commit_spec; case eA: (hash_to_point_spec _ _ _) => [A|//] [<-].
have hA := hash_on hc hgen (words_small pf T place message hgens) hQ eA; have hM := f3 A eA.
have : lsound T place inst (ecc_add (fx_add (fu_super fc)) M blind) (fun s => point_in T place s (padd (Some A) (pmul (dval (2 ^ wb) ks) (Some R)))).
  by apply: lsound_region => r7; apply: (rsound_add hc hA hon g3 hM hb).
by move=> /(_ _ _ _ e5 e6).
Qed.
Theorem C61_commit_sound message r n res zss n' : (0 < size message)%N -> all (fun m => (pc_words m * K < pf_num_bits pf)%N) message ->
  let prog := commit pf pfs q wb nw K gens sc fc (Some Q) base message r in
  lreturns inst n prog = Ok ((res, zss), n') -> lrespects T place inst n prog -> commit_facts message res zss.
Proof. by move=> m0 hm prog e1 e2; exact: (commit_lsound m0 hm e1 e2). Qed.
(* the x-coordinate of the commitment; 0 for the identity *)
Theorem C61_short_commit_sound message r n a zss n' : (0 < size message)%N -> all (fun m => (pc_words m * K < pf_num_bits pf)%N) message ->
  let prog := short_commit pf pfs q wb nw K gens sc fc (Some Q) base message r in
  lreturns inst n prog = Ok ((a, zss), n') -> lrespects T place inst n prog ->
  exists2 r, (r < 2 ^ (wb * nw))%N & forall C, commit_spec S Q R (message_words pf K T place message) r = Some C ->
    cell_value T place (ac_cell a) = (encode C).1.
Proof.
move=> m0 hm prog e1 e2.
have h : lsound T place inst prog (fun t => exists2 r, (r < 2 ^ (wb * nw))%N & forall C,
    commit_spec S Q R (message_words pf K T place message) r = Some C -> cell_value T place (ac_cell t.1) = (encode C).1).
  apply: lsound_bind => r1 [res zs] r2 e3 e4; apply: lsound_ret.
  have [_ _ [k hk h]] := commit_lsound m0 hm e3 e4; exists k => // C /h; rewrite /point_in /= => <-.
  by [].
exact: (h _ _ _ e1 e2).
Qed.
Theorem C61_blinding_factor_sound r n res n' :
  let prog := blinding_factor pf pfs q wb nw fc base r in
  lreturns inst n prog = Ok (res, n') -> lrespects T place inst n prog ->
  exists2 k, (k < 2 ^ (wb * nw))%N & point_in T place res (pmul k (Some R)).
Proof.
move=> prog e1 e2.
have h : lsound T place inst prog (fun t => exists2 k, (k < 2 ^ (wb * nw))%N & point_in T place t (pmul k (Some R))).
  apply: lsound_bind => r1 [blind ws] r2 e3 e4; apply: lsound_ret.
  have [ks [sk hk _ hb]] := C57_mul_fixed_sound hc pok qok fb wf hp hs e3 e4 hfix.
  by exists (dval (2 ^ wb) ks) => //; rewrite expnM -sk; apply: dval_lt.
exact: (h _ _ _ e1 e2).
Qed.
End Sound.
Print Assumptions C61_commit_sound.
Print Assumptions C61_blinding_factor_sound.
Print Assumptions C61_short_commit_sound.

Section Complete.
Variables (F : fieldType) (b : F) (pf : prime_field F) (p : nat) (Fs : fieldType) (pfs : prime_field Fs) (q wb nw K : nat) (gens : seq (F * F)).
Variables (sc : sins_config) (fc : full_config) (Q R : F * F) (base : fixed_point F).
Hypothesis hc : good_curve b.
Hypothesis pok : prime_field_ok pf p.
Hypothesis qok : prime_field_ok pfs q.
Hypothesis fb : fixed_base_ok b pfs q wb nw R base.
Hypothesis us : fixed_base_us pfs wb nw R base.
Hypothesis wf : windows_fit q wb nw.
Hypothesis hp : (2 ^ wb <= p)%N.
Hypothesis w8 : (wb <= 8)%N.
Hypothesis nb : pf_num_bits pfs = (wb * nw)%N.
Hypothesis hs : size (fx_lagrange (fu_super fc)) = (2 ^ wb)%N.
Let two0 := gc_char hc.
Let S := nth (0, 0) gens.
Hypothesis hQ : on_curve b (Some Q).
Hypothesis hgen : all (fun P => on_curve b (Some P)) gens.
Hypothesis hK : (0 < K <= 64)%N.
Hypothesis hgens : size gens = (2 ^ K)%N.
Hypothesis un : uniq (fixed_sels fc ++ [:: q_s1 sc; q_s4 sc]).
Variables (T : table F) (place : nat -> int) (inst : nat -> nat -> value F) (usable : int -> Prop).

Definition okm (s : nat) (row : int) : Prop := okx b wb fc T s row /\ P_SinsemillaComplete.ok K gens T sc s row.
Lemma un_fixed : uniq (fixed_sels fc). Proof. by move: un; rewrite cat_uniq => /andP[]. Qed.
Lemma un_sins : q_s1 sc != q_s4 sc. Proof. by move: un; rewrite cat_uniq => /and3P[_ _] /=; rewrite inE andbT. Qed.
Lemma apart s : s \in fixed_sels fc -> s \in [:: q_s1 sc; q_s4 sc] -> False.
Proof.
move=> h1 h2; move: un; rewrite cat_uniq => /and3P[_ /hasPn h _].
by have /negP := h s h2; apply.
Qed.
Lemma okm_fixed s row : s \in fixed_sels fc -> okx b wb fc T s row -> okm s row.
Proof. by move=> h1 h2; split=> //; split=> e; case: (@apart s) => //; rewrite e !inE eqxx ?orbT. Qed.
Lemma okm_sins s row : s \in [:: q_s1 sc; q_s4 sc] -> P_SinsemillaComplete.ok K gens T sc s row -> okm s row.
Proof. by move=> h1 h2; split=> // i hi e; case: (@apart s) => //; rewrite e; apply: mem_nth. Qed.

Lemma commit_comp message r A : good_message pf K T place message ->
  hash_to_point_spec S Q (message_words pf K T place message) = Some A ->
  let C := padd (Some A) (pmul (pf_val pfs r) (Some R)) in
  lcomp T place inst okm True (commit pf pfs q wb nw K gens sc fc (Some Q) base message (known r))
    (fun t => point_is t.1 C) (fun t => point_in T place t.1 C).
Proof.
move=> hm hA C; have [k1 k2 k3] := good_messageE hm; have m0 : (0 < size message)%N by case: hm.
have oA := hash_on hc hgen (words_small pf T place message hgens) hQ hA; rewrite -k3 in hA.
have [ds eds [sk hk ek]] := digits r qok wf nb w8.
have nr : (wb <= pf_repr_bits pfs)%N by have [_ n1 _] := wf; apply: leq_trans (pf_repr qok); rewrite nb leq_pmulr // (ltn_trans _ n1).
have in0 : q_mul_fixed_full fc \in fixed_sels fc by rewrite inE eqxx.
have in1 : q_add_incomplete (fx_inc (fu_super fc)) \in fixed_sels fc by rewrite !inE eqxx orbT.
have in2 : q_add (fx_add (fu_super fc)) \in fixed_sels fc by rewrite !inE eqxx !orbT.
have hmul := mul_fixed_comp hc pok qok fb us wf hp nr inst place hs (fun row h => okm_fixed in0 (@okx_full F b wb fc T un_fixed row h))
  (fun row h => okm_fixed in1 (@okx_block F b wb fc T un_fixed 1 row isT h)) (fun row h => okm_fixed in2 (@okx_block F b wb fc T un_fixed 2 row isT h)) sk hk eds.
apply: (lcomp_bind hmul) => -[blind ws] [hb _]; rewrite ek in hb *.
have hon : on_curve b (pmul (pf_val pfs r) (Some R)) by apply: (pmul_on hc); exact: (fb_curve fb).
have hhash H := @hash_to_point_comp F pf p pok K gens T place inst sc two0 hK hgens un_sins H message Q A m0 k1 (fun=> k2) hA.
have a1 : A.1 != 0 by case: (A) oA => x y h; exact: (x_neq0 hc h).
have a2 : A.2 != 0 by case: (A) oA => x y h; exact: (y_neq0 hc h).
apply: (lcomp_bind (lcomp_region_in (E := [:: q_s1 sc; q_s4 sc]) (hhash _ a1 a2) _ okm_sins)) => [r0|[M zss] [hM _]].
  by apply: hash_enables; rewrite !inE eqxx ?orbT.
have ha H r0 := rcomp_add inst r0 0 (H := H) hc oA hon (fun row h => okm_fixed in2 (@okx_block F b wb fc T un_fixed 2 row isT h)) hM hb.
apply: (lcomp_bind (V1 := fun u => point_is u C) (Q1 := fun u => point_in T place u C)) => [|s hs'].
  by apply: lcomp_region => r0; apply: ha => -[[_ h1] [h2 _]].
by apply: lcomp_ret => [//|[_ h]].
Qed.

(* what a table filled by an honest prover satisfies after a program of this domain *)
Definition commit_table {A : Type} (n : nat) (prog : lprog F A) : Prop :=
  [/\ lhonest T place inst n prog, lselectors_on T place inst n prog,
      on_here T place (fixed_gates b wb fc) (fixed_sels fc) (lregions inst n prog) & sins_on_here K gens T place sc (lregions inst n prog)].
Definition commit_constraints {A : Type} (n : nat) (prog : lprog F A) : Prop :=
  [/\ lrespects T place inst n prog, forall row, all (fun g => at_row T row g == 0) (fixed_gates b wb fc), gates_hold T (sins_gates F sc) &
      all_generators K gens T sc usable -> looked_up T usable (sins_lookup K gens sc) (sins_columns sc)].
Lemma comp_constraints (A : Type) n (prog : lprog F A) : lrespects T place inst n prog -> lon_ok place okm (lregions inst n prog) ->
  commit_table n prog -> commit_constraints n prog.
Proof.
move=> h1 h2 [_ _ h3 h4].
have k1 : lon_ok place (okx b wb fc T) (lregions inst n prog) by apply: List.Forall_impl h2 => rc h s off /h[].
have k2 : lon_ok place (P_SinsemillaComplete.ok K gens T sc) (lregions inst n prog) by apply: List.Forall_impl h2 => rc h s off /h[].
have hpass := on_here_passes k2 h4; split=> // [|row|ht row _]; first exact: (fixed_rows k1 h3).
  by case: (hpass row).
by have [_ [w /ht[row' g2 g3] g4]] := hpass row; exists row'; rewrite ?g3.
Qed.
Theorem C61_commit_complete n message r A : good_message pf K T place message ->
  hash_to_point_spec S Q (message_words pf K T place message) = Some A ->
  let C := padd (Some A) (pmul (pf_val pfs r) (Some R)) in
  let prog := commit pf pfs q wb nw K gens sc fc (Some Q) base message (known r) in
  exists res zss n', [/\ lreturns inst n prog = Ok ((res, zss), n'), point_is res C &
    commit_table n prog -> commit_constraints n prog /\ point_in T place res C].
Proof.
move=> hm hA C prog; have [[res zss] [n' [e [v h]]]] := commit_comp r hm hA n; exists res, zss, n'; split=> // ht.
by case: (ht) => h1 h2 _ _; have [q1 q2 q3] := h Logic.I (conj h1 h2); split=> //; apply: comp_constraints.
Qed.
Theorem C61_short_commit_complete n message r A : good_message pf K T place message ->
  hash_to_point_spec S Q (message_words pf K T place message) = Some A ->
  let C := padd (Some A) (pmul (pf_val pfs r) (Some R)) in
  let prog := short_commit pf pfs q wb nw K gens sc fc (Some Q) base message (known r) in
  exists a zss n', [/\ lreturns inst n prog = Ok ((a, zss), n'), ac_value a = known (encode C).1 &
    commit_table n prog -> commit_constraints n prog /\ cell_value T place (ac_cell a) = (encode C).1].
Proof.
move=> hm hA C prog.
have : lcomp T place inst okm True prog (fun t => ac_value t.1 = known (encode C).1) (fun t => cell_value T place (ac_cell t.1) = (encode C).1).
  apply: (lcomp_bind (commit_comp r hm hA)) => -[res zss] hv; apply: lcomp_ret => [|[_]].
    by case: hv => -[v ev dv] _; rewrite -dv -C09_evaluate /ecc_extract_p /ec_evaluate; cbn [fst ac_value]; rewrite ev.
  by rewrite /point_in /= => <-.
move=> /(_ n)[[a zss] [n' [e [v h]]]]; exists a, zss, n'; split=> // ht.
by case: (ht) => h1 h2 _ _; have [q1 q2 q3] := h Logic.I (conj h1 h2); split=> //; apply: comp_constraints.
Qed.
Theorem C61_blinding_factor_complete n r :
  let prog := blinding_factor pf pfs q wb nw fc base (known r) in
  let C := pmul (pf_val pfs r) (Some R) in
  exists res n', [/\ lreturns inst n prog = Ok (res, n'), point_is res C &
    commit_table n prog -> commit_constraints n prog /\ point_in T place res C].
Proof.
move=> prog C.
have [ds eds [sk hk ek]] := digits r qok wf nb w8.
have nr : (wb <= pf_repr_bits pfs)%N by have [_ n1 _] := wf; apply: leq_trans (pf_repr qok); rewrite nb leq_pmulr // (ltn_trans _ n1).
have in0 : q_mul_fixed_full fc \in fixed_sels fc by rewrite inE eqxx.
have in1 : q_add_incomplete (fx_inc (fu_super fc)) \in fixed_sels fc by rewrite !inE eqxx orbT.
have in2 : q_add (fx_add (fu_super fc)) \in fixed_sels fc by rewrite !inE eqxx !orbT.
have hmul := mul_fixed_comp hc pok qok fb us wf hp nr inst place hs (fun row h => okm_fixed in0 (@okx_full F b wb fc T un_fixed row h))
  (fun row h => okm_fixed in1 (@okx_block F b wb fc T un_fixed 1 row isT h)) (fun row h => okm_fixed in2 (@okx_block F b wb fc T un_fixed 2 row isT h)) sk hk eds.
have : lcomp T place inst okm True prog (fun t => point_is t C) (fun t => point_in T place t C).
  apply: (lcomp_bind hmul) => -[blind ws] [hb _]; rewrite ek in hb *; apply: lcomp_ret => [//|].
  by case=> _ h; apply: h.
move=> /(_ n)[res [n' [e [v h]]]]; exists res, n'; split=> // ht.
by case: (ht) => h1 h2 _ _; have [q1 q2 q3] := h Logic.I (conj h1 h2); split=> //; apply: comp_constraints.
Qed.
End Complete.
Print Assumptions C61_commit_complete.
Print Assumptions C61_blinding_factor_complete.
Print Assumptions C61_short_commit_complete.
