(* The stages of create_proof for a list of circuits, each with what the verifier reads back. *)
Set Warnings "-notation-overridden,-ambiguous-paths".
From mathcomp Require Import all_ssreflect all_algebra.
From Verif Require Import Util L_Chunks M_Poly L_Poly M_Domain L_Domain P_Domain M_Evaluator S_Evaluator P_Evaluator M_Assigned M_Env M_Transcript
  L_Transcript M_Commit S_Commit L_Commit P_Commit L_WP L_WPR M_Multiopen M_Circuit S_Circuit P_Circuit M_Selectors S_Selectors L_Selectors M_Copy L_Copy
  M_Keys M_Permutation S_Permutation M_Lookup L_Sigma P_Sigma L_PermCommit P_Permutation S_Plonk L_Expr P_Lookup M_Vanishing P_Vanishing
  M_Plonk M_Assign M_Keygen S_Mock P_Prove L_Wpe L_PlonkEval L_PlonkLeaves L_PlonkRun L_PlonkQuot L_PlonkDeg L_PlonkKey.
Import GRing.Theory.
Set Implicit Arguments.
Unset Strict Implicit.
Local Open Scope ring_scope.

(* leaf is the index of c in the list of registered polynomials *)
Lemma all_flattenE (T : Type) (p : pred T) (ss : seq (seq T)) : all p (flatten ss) = all (all p) ss.
Proof. by elim: ss => //= s ss IH; rewrite all_cat IH. Qed.
Lemma mem_flatten (T : Type) (C : eqType) (x0 : T) (f : T -> seq C) (l : seq T) c : c \in flatten (map f l) ->
  exists2 i, (i < size l)%N & c \in f (nth x0 l i).
Proof.
elim: l => //= x l IH; rewrite mem_cat => /orP [h|/IH [i hi h]]; [by exists 0%N|by exists i.+1].
Qed.
Section AtLeaf.
Variable T : Type.
Implicit Types (polys : seq (seq T)).
Definition at_leaf polys (c : seq T) (leaf : nat) : Prop := (leaf < size polys)%N /\ nth [::] polys leaf = c.
Lemma at_leaf_cat polys more c leaf : at_leaf polys c leaf -> at_leaf (polys ++ more) c leaf.
Proof. by move=> [h1 <-]; split; rewrite ?size_cat ?ltn_addr // nth_cat h1. Qed.
Lemma at_leaf_rcons polys c : at_leaf (rcons polys c) c (size polys).
Proof. by split; rewrite ?size_rcons // nth_rcons ltnn eqxx. Qed.
Lemma at_leaf_rconsr polys x c leaf : at_leaf polys c leaf -> at_leaf (rcons polys x) c leaf.
Proof. by rewrite -cats1; exact: at_leaf_cat. Qed.
Lemma register_all_at polys ps0 : let r := register_all polys ps0 in
  [/\ r.1 = polys ++ ps0, size r.2 = size ps0 &
   forall c, (c < size ps0)%N -> at_leaf r.1 (nth [::] ps0 c) (nth 0%N r.2 c)].
Proof.
split=> //=; first by rewrite size_iota.
move=> c hc; rewrite nth_iota //; split; first by rewrite size_cat ltn_add2l.
by rewrite nth_cat ltnNge leq_addr /= addKn.
Qed.
Lemma register_each_at polys pss : let r := register_each polys pss in
  [/\ r.1 = polys ++ flatten pss, size r.2 = size pss &
   forall i, (i < size pss)%N -> size (nth [::] r.2 i) = size (nth [::] pss i) /\
   forall c, (c < size (nth [::] pss i))%N -> at_leaf r.1 (nth [::] (nth [::] pss i) c) (nth 0%N (nth [::] r.2 i) c)].
Proof. exact: register_eachP. Qed.
End AtLeaf.

Section Stages.
Variables (F B : fieldType) (G : lmodType F) (E : env B G) (ps : params G).
Hypotheses (ok : env_ok E) (pok : params_ok E ps).
Variables (d : domain F) (pk : pkey G) (calls : seq copy_call).
Notation n := (2 ^ p_k ps)%N.
Notation vk := (pk_vk pk).
Notation m := (vk_cs vk).
Notation D := (vk_cs_degree vk).
Notation bf := (blinding_factors m).
Notation u := (n - (bf + 1))%N.
Notation omega := (d_omega d).
Notation threads := (e_threads E).
Notation nc := (ncols m).
Notation cof := (commitment_of ps).
Hypothesis hk : key_ok E ps d pk calls.
Notation hd := (ko_new hk).
Notation hbf := (k_bf1 hk).

(* the instances and witnesses: the right number of columns, at most u rows of public inputs *)
Variables (advs instances : seq (seq (seq F))).
Definition inputs_ok : bool :=
  [&& size advs == size instances,
      all (fun i : seq (seq F) => (size i == num_instance m) && all (fun c : seq F => size c <= u)%N i) instances
    & all (fun a : seq (seq F) => (size a == num_advice m) && all (fun c : seq F => size c == n) a) advs].
Hypothesis hin : inputs_ok.
Notation np := (size instances).
Notation inst i := (nth [::] instances i).
Notation adv i := (nth [::] advs i).

Lemma in_adv : size advs = np. Proof. by have /and3P [/eqP ->] := hin. Qed.
Lemma in_inst i : (i < np)%N -> size (inst i) = num_instance m /\ all (fun c => size c <= u)%N (inst i).
Proof. by move=> hi; have /and3P [_ /(all_nthP [::])/(_ i hi)/andP [/eqP -> ->]] := hin. Qed.
Lemma in_advi i : (i < np)%N -> size (adv i) = num_advice m /\ all (fun c => size c == n)%N (adv i).
Proof. by move=> hi; have /and3P [_ _ /(all_nthP [::])] := hin; rewrite in_adv => /(_ i hi)/andP [/eqP -> ->]. Qed.

(* the errors that may occur: a failed write, or a lookup that does not hold *)
Variable A : error -> Prop.
Hypothesis hA : A EIo.
Hypothesis hAl : forall i T lk, (i < np)%N ->
  prover_table n u (pk_fixed_values pk) (adv i) (map (padded ps) (inst i)) T ->
  List.In lk (lookups m) -> ~ lookup_holds n u T lk -> A EConstraintSystemFailure.

(* ---------------------------------------------------------------- instances and advice *)
Definition ic_of (i : seq (seq F)) : seq G := if rmap (instance_commitment E ps d m) i is Ok c then c else [::].
Notation ics := (map ic_of instances).
Notation is0 := (ISingle [::] [::] [::] : isingle F).
Notation as0 := (ASingle [::] [::] [::] [::] : asingle F).
Lemma rmapE (T U : Type) (f : T -> res U) (g : T -> U) l : (forall x, List.In x l -> f x = Ok (g x)) -> rmap f l = Ok (map g l).
Proof.
elim: l => //= x l IH h; rewrite (h x) /=; last by left.
by rewrite IH // => y hy; apply: h; right.
Qed.
Lemma In_nth (T : Type) (x0 x : T) l : List.In x l -> exists2 i, (i < size l)%N & nth x0 l i = x.
Proof. by elim: l => //= y l IH [<-|/IH [i hi e]]; [exists 0%N|exists i.+1]. Qed.
Lemma nth_In (T : Type) (x0 : T) l i : (i < size l)%N -> List.In (nth x0 l i) l.
Proof. by elim: l i => //= y l IH [|i] hi; [left|right; apply: IH]. Qed.
Lemma icsE : rmap (rmap (instance_commitment E ps d m)) instances = Ok ics.
Proof.
apply: rmapE => x /(In_nth [::]) [i hi <-]; have [_ h] := in_inst hi.
have [comms [e _]] := commit_instance_run ok pok hd hbf (Wst [::] [::] 0) h.
by rewrite /ic_of e.
Qed.

(* one circuit's instance columns *)
Definition inst_ok (i : nat) (r : isingle F) : Prop :=
  [/\ cols_ok E ps d (num_instance m) (is_values r) (is_polys r) (is_cosets r), is_values r = map (padded ps) (inst i),
      size (nth [::] ics i) = num_instance m &
      forall c, (c < num_instance m)%N -> nth 0 (nth [::] ics i) c = cof (nth [::] (is_polys r) c) 1].
Lemma instances_run s : wpe A (mmap (commit_instance E ps d m) instances) s (fun ia s' => size ia = np /\
  exists2 o, replays s s' (mmap (fun cs => mmap (r_common_point E) cs) ics) o &
    forall i, (i < np)%N -> inst_ok i (nth is0 ia i)).
Proof.
have := @wpe_mmap A _ _ _ _ [::] is0 [::] [::] (commit_instance E ps d m) (fun cs => mmap (r_common_point E) cs) instances ics
  (fun i r _ => inst_ok i r) s.
rewrite size_map => /(_ erefl) h; apply: wpe_weaken (h _) => [ia s' [h1 [o h2 [_ h3]]]|i s0 hi].
  by split=> //; exists o.
have [hs ha] := in_inst hi; have [comms [e hw]] := commit_instance_run ok pok hd hbf s0 ha.
have eic : nth [::] ics i = comms by rewrite (nth_map [::]) // /ic_of e.
apply: wpe_wp => //; apply: wp_weaken hw => r s1 [o ho [h1 h2 h3 h4]].
by exists o; rewrite /inst_ok eic // -hs.
Qed.

Definition adv_ok (i : nat) (r : asingle F) (comms : seq G) : Prop :=
  [/\ cols_ok E ps d (num_advice m) (as_values r) (as_polys r) (as_cosets r), size (as_blinds r) = num_advice m,
      size comms = num_advice m,
      forall c, (c < num_advice m)%N -> nth 0 comms c = cof (nth [::] (as_polys r) c) (nth 0 (as_blinds r) c) &
      forall c row, (c < num_advice m)%N -> (row < u)%N -> nth 0 (nth [::] (as_values r) c) row = nth 0 (nth [::] (adv i) c) row].
Lemma advice_run s : wpe A (mmap (fun ci => commit_advice E ps d m ci.1) (zip ([seq Ok a | a <- advs]) instances)) s (fun aa s' =>
  size aa = np /\ exists2 acs, replays s s' (mmap (fun _ => read_n_points E (num_advice m)) (iota 0 np)) acs &
    size acs = np /\ forall i, (i < np)%N -> adv_ok i (nth as0 aa i) (nth [::] acs i)).
Proof.
have sz : size (zip [seq Ok a | a <- advs] instances) = np by rewrite size2_zip ?size_map ?in_adv.
have := @wpe_mmap A _ _ _ _ (Ok [::], [::]) as0 0%N [::] (fun ci : res (seq (seq F)) * seq (seq F) => commit_advice E ps d m ci.1)
  (fun _ => read_n_points E (num_advice m)) (zip ([seq Ok a | a <- advs]) instances) (iota 0 np) adv_ok s.
rewrite sz size_iota => /(_ erefl); apply=> i s0 hi.
have [hs ha] := in_advi hi; rewrite nth_zip ?size_map ?in_adv // (nth_map [::]) ?in_adv //= -hs.
apply: wpe_wp => //; apply: wp_weaken (commit_advice_run ok pok hd hbf s0 ha) => r s1 [comms h1 [h2 h3 h4 h5 h6]].
by exists comms => //; rewrite /adv_ok -hs.
Qed.

(* ---------------------------------------------------------------- the evaluators *)
Section Leaves.
Variables (ia : seq (isingle F)) (aa : seq (asingle F)) (acs : seq (seq G)).
Hypothesis sia : size ia = np.
Hypothesis saa : size aa = np.
Hypothesis hia : forall i, (i < np)%N -> inst_ok i (nth is0 ia i).
Hypothesis haa : forall i, (i < np)%N -> adv_ok i (nth as0 aa i) (nth [::] acs i).

(* the table, and the polynomials of the columns *)
Definition tab (i : nat) (a : any) (c row : nat) : F :=
  nth 0 (nth [::] (match a with Advice => as_values (nth as0 aa i) | Fixed => pk_fixed_values pk
                              | Instance => is_values (nth is0 ia i) end) c) row.
Definition pol (i : nat) (a : any) (c : nat) : seq F :=
  nth [::] (match a with Advice => as_polys (nth as0 aa i) | Fixed => pk_fixed_polys pk
                       | Instance => is_polys (nth is0 ia i) end) c.
Lemma tab_table i : (i < np)%N -> prover_table n u (pk_fixed_values pk) (adv i) (map (padded ps) (inst i)) (tab i).
Proof.
move=> hi; have [_ _ _ _ h5] := haa hi; have [_ h1 _ _] := hia hi; have [hs _] := in_advi hi; split.
- by [].
- by move=> c row; rewrite hs; exact: h5.
- by move=> c row hc hr; rewrite /tab h1.
Qed.
Lemma pol_size i a c : (i < np)%N -> (c < nc a)%N -> size (pol i a c) = n.
Proof.
move=> hi; have [h1 _ _ _ _] := haa hi; have [h2 _ _ _] := hia hi; have [h3 _] := fixed_cols ok pok hk.
by case: a => hc; [exact: co_npolys h1 _ hc|exact: co_npolys h3 _ hc|exact: co_npolys h2 _ hc].
Qed.
Lemma pol_eval i a c row : (i < np)%N -> (c < nc a)%N -> (row < n)%N -> (Poly (pol i a c)).[omega ^+ row] = tab i a c row.
Proof.
move=> hi; have [h1 _ _ _ _] := haa hi; have [h2 _ _ _] := hia hi; have [h3 _] := fixed_cols ok pok hk.
by case: a => hc hr; [exact: co_eval h1 _ _ hc hr|exact: co_eval h3 _ _ hc hr|exact: co_eval h2 _ _ hc hr].
Qed.

(* the evaluator of values *)
Lemma value_leaves : let r1 := register_all [::] (pk_fixed_values pk) in
  let r2 := register_each r1.1 [seq as_values a | a <- aa] in
  let r3 := register_each r2.1 [seq is_values i | i <- ia] in
  [/\ size r2.2 = np, size r3.2 = np, all (fun p => size p == n) r3.1 & forall i, (i < np)%N ->
    let l := LLeaves (nth [::] r2.2 i) r1.2 (nth [::] r3.2 i) in
    (r3.1 != [::]) /\
    (forall a, all (fun leaf => leaf < size r3.1)%N (leaves_of l a)) /\
    leaf_columns n nc l (fun leaf row => nth 0 (nth [::] r3.1 leaf) row) (tab i)].
Proof.
move=> r1 r2 r3.
have [e1 z1 h1] := register_all_at [::] (pk_fixed_values pk); rewrite -/r1 in e1 z1 h1.
have [e2 z2 h2] := register_each_at r1.1 [seq as_values a | a <- aa]; rewrite -/r2 in e2 z2 h2.
have [e3 z3 h3] := register_each_at r2.1 [seq is_values i | i <- ia]; rewrite -/r3 in e3 z3 h3.
rewrite size_map saa in z2 h2; rewrite size_map sia in z3 h3.
split=> //.
  rewrite e3 e2 e1 cat0s !all_cat (ko_fixed hk) /=.
  have hf (T : Type) (x0 : T) (f : T -> seq (seq F)) (l : seq T) k : size l = np ->
      (forall i, (i < np)%N -> size (f (nth x0 l i)) = k /\ forall c, (c < k)%N -> size (nth [::] (f (nth x0 l i)) c) = n) ->
      all (fun p => size p == n) (flatten (map f l)).
    move=> hs h; rewrite all_flattenE all_map; apply/(all_nthP x0) => i; rewrite hs => hi; apply/(all_nthP [::]) => c.
    by have [-> h'] := h i hi => hc /=; rewrite h'.
  apply/andP; split.
    apply: (hf _ as0 _ _ (num_advice m)) => // i hi; have [co _ _ _ _] := haa hi.
    by split=> [|c]; [exact: co_vals co|exact: co_nvals co _].
  apply: (hf _ is0 _ _ (num_instance m)) => // i hi; have [co _ _ _] := hia hi.
  by split=> [|c]; [exact: co_vals co|exact: co_nvals co _].
move=> i hi l; have [ca _ _ _ _] := haa hi; have [ci _ _ _] := hia hi; have [cf _] := fixed_cols ok pok hk.
have [sa ha] := h2 i hi; have [si hi3] := h3 i hi.
rewrite (nth_map as0) ?saa // in sa ha; rewrite (nth_map is0) ?sia // in si hi3.
rewrite (co_vals ca) in sa ha; rewrite (co_vals ci) in si hi3; rewrite (co_vals cf) in z1 h1.
have sz a : size (leaves_of l a) = nc a by case: a.
have hat a c : (c < nc a)%N -> at_leaf r3.1 (nth [::] (match a with Advice => as_values (nth as0 aa i) | Fixed => pk_fixed_values pk
                              | Instance => is_values (nth is0 ia i) end) c) (nth 0%N (leaves_of l a) c).
  case: a => hc /=; [rewrite e3; exact/at_leaf_cat/ha|rewrite e3 e2; exact/at_leaf_cat/at_leaf_cat/h1|exact: hi3].
split; last split.
- have := ko_cols hk; rewrite !addn_gt0 => hc; have : exists a, (0 < nc a)%N.
    by case/orP: hc => [/orP []|] hc; [exists Fixed|exists Advice|exists Instance].
  by case=> a /hat [h _]; rewrite -size_eq0 -lt0n; apply: leq_ltn_trans h.
- by move=> a; apply/(all_nthP 0%N) => c; rewrite sz => /hat [].
- by move=> a c hc; rewrite sz; split=> // row hr; have [_ ->] := hat a c hc.
Qed.

(* the evaluator of cosets *)
Definition col_leaves (polys : seq (seq F)) (i : nat) (l : lleaves) : Prop :=
  forall a, size (leaves_of l a) = nc a /\
  forall c, (c < nc a)%N -> registered E ps d polys (pol i a c) (nth 0%N (leaves_of l a) c).
Record sel_leaves (polys : seq (seq F)) (sigma : seq nat) (l0 lb ll : nat) (p0 pb pl : seq F) : Prop := SelLeaves {
  sl_nsigma : size sigma = size (permutation m);
  sl_sigma : forall j, (j < size (permutation m))%N -> registered E ps d polys (nth [::] (pk_perm_polys pk) j) (nth 0%N sigma j);
  sl_l0 : registered E ps d polys p0 l0;
  sl_lb : registered E ps d polys pb lb;
  sl_ll : registered E ps d polys pl ll }.
Lemma reg_at polys p leaf : size p = n -> at_leaf polys (coset_of E d p) leaf -> registered E ps d polys p leaf.
Proof. by move=> hs [h1 h2]; split=> //; rewrite (coset_ofE ok hd hs) h2. Qed.
Lemma coset_leaves p0 pb pl :
  size p0 = n -> size pb = n -> size pl = n ->
  pk_l0 pk = coset_of E d p0 -> pk_l_blind pk = coset_of E d pb -> pk_l_last pk = coset_of E d pl ->
  let r1 := register_all [::] (pk_fixed_cosets pk) in
  let r2 := register_each r1.1 [seq as_cosets a | a <- aa] in
  let r3 := register_each r2.1 [seq is_cosets i | i <- ia] in
  let r4 := register_all r3.1 (pk_perm_cosets pk) in
  let r5 := register r4.1 (pk_l0 pk) in
  let r6 := register r5.1 (pk_l_blind pk) in
  let r7 := register r6.1 (pk_l_last pk) in
  [/\ size r2.2 = np, size r3.2 = np, exists pcs, cosets E ps d r7.1 pcs,
      sel_leaves r7.1 r4.2 r5.2 r6.2 r7.2 p0 pb pl &
      forall i, (i < np)%N -> col_leaves r7.1 i (LLeaves (nth [::] r2.2 i) r1.2 (nth [::] r3.2 i))].
Proof.
move=> s0 sb sl e0 eb el r1 r2 r3 r4 r5 r6 r7.
have [e1 z1 h1] := register_all_at [::] (pk_fixed_cosets pk); rewrite -/r1 in e1 z1 h1.
have [e2 z2 h2] := register_each_at r1.1 [seq as_cosets a | a <- aa]; rewrite -/r2 in e2 z2 h2.
have [e3 z3 h3] := register_each_at r2.1 [seq is_cosets i | i <- ia]; rewrite -/r3 in e3 z3 h3.
have [e4 z4 h4] := register_all_at r3.1 (pk_perm_cosets pk); rewrite -/r4 in e4 z4 h4.
rewrite size_map saa in z2 h2; rewrite size_map sia in z3 h3.
have [p1 p2 p3 p4 hp] := perm_key ok pok hk; have [cf _] := fixed_cols ok pok hk.
have up c leaf : at_leaf r4.1 c leaf -> at_leaf r7.1 c leaf.
  by move=> h; do 3! apply: at_leaf_rconsr.
have e7 : r7.1 = r3.1 ++ pk_perm_cosets pk ++ [:: pk_l0 pk; pk_l_blind pk; pk_l_last pk].
  by rewrite -[r7.1]/(rcons (rcons (rcons r4.1 _) _) _) e4 -!cats1 -!catA.
have hex : forall c, c \in r7.1 -> exists2 p, size p = n & coeff_to_extended threads d p = Some c.
  have co k vals polys csts c : cols_ok E ps d k vals polys csts -> c \in csts -> exists2 p, size p = n & coeff_to_extended threads d p = Some c.
    move=> h /(nthP [::]) [j]; rewrite (co_cosets h) => hj <-; exists (nth [::] polys j); first exact: co_npolys h _ hj.
    by rewrite (co_coset h) // (coset_ofE ok hd) // (co_npolys h).
  move=> c; rewrite e7 e3 e2 e1 cat0s !mem_cat -!orbA => /or4P [|||].
  - exact: co cf.
  - move=> /(mem_flatten as0) [i]; rewrite saa => hi; have [h _ _ _ _] := haa hi; exact: co h.
  - move=> /(mem_flatten is0) [i]; rewrite sia => hi; have [h _ _ _] := hia hi; exact: co h.
  move=> /orP [/(nthP [::]) [j]|].
    rewrite p3 => hj <-; have [q1 _ -> _] := hp j hj; exists (nth [::] (pk_perm_polys pk) j) => //; exact: (coset_ofE ok hd q1).
  rewrite !inE => /or3P [] /eqP ->; rewrite ?e0 ?eb ?el.
  - by exists p0 => //; exact: (coset_ofE ok hd s0).
  - by exists pb => //; exact: (coset_ofE ok hd sb).
  - by exists pl => //; exact: (coset_ofE ok hd sl).
split=> //.
- have [||more] := @cosets_ext F B G E ps ok D d hd [::] r7.1 [::]; [by exists r7.1|by split|].
  by rewrite cat0s => hm; exists more.
- split; first by rewrite z4.
  + move=> j hj; have [q1 _ q3 _] := hp j hj; apply: reg_at => //; apply: up; rewrite -q3; apply: h4; by rewrite p3.
  + by apply: reg_at => //; rewrite -e0; do 2! apply: at_leaf_rconsr; exact: at_leaf_rcons.
  + by apply: reg_at => //; rewrite -eb; apply: at_leaf_rconsr; exact: at_leaf_rcons.
  + by apply: reg_at => //; rewrite -el; exact: at_leaf_rcons.
move=> i hi; have [ca _ _ _ _] := haa hi; have [ci _ _ _] := hia hi.
have [sa ha] := h2 i hi; have [si hi3] := h3 i hi.
rewrite (nth_map as0) ?saa // in sa ha; rewrite (nth_map is0) ?sia // in si hi3.
rewrite (co_cosets ca) in sa ha; rewrite (co_cosets ci) in si hi3; rewrite (co_cosets cf) in z1 h1.
have up3 c leaf : at_leaf r3.1 c leaf -> at_leaf r7.1 c leaf by move=> h; apply: up; rewrite e4; exact: at_leaf_cat.
case=> /=; split=> // c hc; apply: reg_at; try exact: pol_size; rewrite /pol.
- by rewrite -(co_coset ca) //; apply: up3; rewrite e3; exact/at_leaf_cat/ha.
- by rewrite -(co_coset cf) //; apply: up3; rewrite e3 e2; exact/at_leaf_cat/at_leaf_cat/h1.
- by rewrite -(co_coset ci) //; apply: up3; exact: hi3.
Qed.
End Leaves.
End Stages.
