(* C27, C28 and C29: the lookup argument. *)
Set Warnings "-notation-overridden,-ambiguous-paths".
From mathcomp Require Import all_ssreflect all_algebra.
From Verif Require Import Util M_Poly L_Poly M_Domain L_Domain P_Domain M_Evaluator S_Evaluator L_Evaluator M_Assigned M_Env
  M_Transcript L_Transcript M_Commit S_Commit L_Commit P_Commit L_WP L_WPR M_Circuit S_Circuit M_Selectors L_Selectors
  M_Keys M_Permutation M_Lookup S_Count L_PermMath S_Permutation L_PermRows L_PermCommit S_Plonk L_Expr L_LookupMath
  L_LookupRows L_Permute Ex_Field Ex_Env.
Import GRing.Theory.
Set Implicit Arguments.
Unset Strict Implicit.
Local Open Scope ring_scope.

Section Permute.
Variables (F B : fieldType) (G : lmodType F) (E : env B G) (ps : params G).
Hypothesis ok : env_ok E.

Lemma draws_run (A : Type) (l : seq A) s :
  mmap (fun _ => draw (E := E)) l s =
  Ok (mkseq (fun i => e_rng E (w_rng s + i)) (size l), Wst (w_abs s) (w_out s) (w_rng s + size l)).
Proof.
elim: l s => [|a l IH] s; first by rewrite /= addn0; case: s.
rewrite /= {1}/mbind /= {1}/mbind IH /= addnS addSn /mkseq /= addn0.
by rewrite -[1%N]addn0 iotaDl -map_comp; congr (Ok (_ :: _, _)); apply: eq_map => i /=; rewrite add1n addSnnS.
Qed.

Lemma wp_run S A (x : M S A) s (Q : A -> S -> Prop) a s1 : x s = Ok (a, s1) -> Q a s1 -> wp x s Q.
Proof. by rewrite /wp => ->. Qed.
Lemma mbind_ok S A C (x : M S A) (f : A -> M S C) s a s1 : x s = Ok (a, s1) -> mbind x f s = f a s1.
Proof. by rewrite /mbind => ->. Qed.

(* For input and table vectors of n values, of which the first u = n - (bf + 1) are usable:
   fails iff a usable input is missing from the usable table; otherwise the usable parts of
   the results are permutations of the usable input and table, each usable row of the permuted
   input equals the permuted table's or the row above, and all other rows are random. *)
Theorem C27_permute_expression_pair : forall (pk : pkey G) (input table : seq F) s,
  let bf := blinding_factors (vk_cs (pk_vk pk)) in
  let n := p_n ps in let u := (n - (bf + 1))%N in
  (bf + 1 <= n)%N -> d_n (vk_domain (pk_vk pk)) = n -> size input = n -> size table = n ->
  if all (fun x => x \in take u table) (take u input) then
    exists a t : seq F, [/\
      permute_expression_pair E ps pk input table s =
        Ok ((a, t), Wst (w_abs s) (w_out s) (w_rng s + (bf + 1) + (bf + 1))),
      size a = n /\ size t = n,
      perm_eq (take u a) (take u input) /\ perm_eq (take u t) (take u table),
      (forall i, (i < u)%N -> a`_i = t`_i \/ (0 < i)%N /\ a`_i = a`_i.-1) &
      (forall i, (i < bf + 1)%N -> a`_(u + i) = e_rng E (w_rng s + i)) /\
      (forall i, (i < bf + 1)%N -> t`_(u + i) = e_rng E (w_rng s + (bf + 1) + i))]
  else permute_expression_pair E ps pk input table s = Err EConstraintSystemFailure.
Proof.
move=> pk input table s bf n u hbf hd si st.
rewrite /permute_expression_pair -/bf -/n hbf [~~ _]/= -/u.
have hi : (u <= size input)%N by rewrite si leq_subr.
have ht : (u <= size table)%N by rewrite st leq_subr.
have := permute_usableE (ok_le_total ok) (ok_le_trans ok) (ok_le_anti ok) hi ht.
cbv zeta; case: ifP => _; last by move=> e; rewrite /mlift /mbind e.
move=> [a [t [e pa pt lu]]].
have sa : size a = u by rewrite (perm_size pa) size_takel.
have st' : size t = u by rewrite (perm_size pt) size_takel.
have l0 : mlift (permute_usable (e_le E) u input table) s = Ok ((a, t), s) by rewrite /mlift e.
rewrite (mbind_ok _ l0) (mbind_ok _ (draws_run _ _)) (mbind_ok _ (draws_run _ _)) !size_iota.
rewrite !size_cat !size_mkseq sa st' subnK // eqxx hd eqxx [_ || _]/= [~~ _]/=.
exists (a ++ mkseq (fun i => e_rng E (w_rng s + i)) (bf + 1)),
  (t ++ mkseq (fun i => e_rng E (w_rng s + (bf + 1) + i)) (bf + 1)); split=> //.
- by rewrite !size_cat !size_mkseq sa st' subnK.
- by rewrite !take_size_cat.
- move=> i hiu; rewrite !nth_cat sa st' hiu; case: (lu i hiu) => [|[i0 h]]; [by left|right; split=> //].
  by rewrite h (leq_ltn_trans (leq_pred _) hiu).
by split=> i hb; rewrite nth_cat ?sa ?st' ltnNge leq_addr /= addKn nth_mkseq.
Qed.
End Permute.
Print Assumptions C27_permute_expression_pair.

(* Soundness.  T are the values of all columns; a and t those of the permuted columns. *)
Section Sound.
Variables (F : fieldType) (k : nat) (omega : F).
Notation n := (2 ^ k)%N.
Hypothesis homega : n.-primitive_root omega.
Variable u : nat.
Hypotheses (u0 : (0 < u)%N) (un : (u < n)%N).
Variable ncols : any -> nat.

(* the three fixed polynomials of the proving key, on the domain *)
Record row_selectors (P : nat -> {poly F}) (l0 l_blind l_last : nat) : Prop := RowSelectors {
  rs_l0 : forall i, (i < n)%N -> (P l0).[omega ^+ i] = (i == 0%N)%:R;
  rs_l_last : forall i, (i < n)%N -> (P l_last).[omega ^+ i] = (i == u)%:R;
  rs_l_blind : forall i, (i < n)%N -> (P l_blind).[omega ^+ i] = (u < i)%:R }.

(* the Asts of a lookup argument are the compressed input and table expressions *)
Definition compressed_asts (l : lookup F) (lc : lleaves) (theta : F) (p : lpermuted F) : Prop :=
  exists ia ta, [/\ sequence [seq leaf_ast lc e | e <- lk_input l] = Some ia,
    sequence [seq leaf_ast lc e | e <- lk_table l] = Some ta,
    lp_input_coset p = compress_cosets theta ia & lp_table_coset p = compress_cosets theta ta].

Theorem C29_lookup_sound : forall (T : any -> nat -> nat -> F) (l : lookup F), lookup_within n ncols l ->
  exists bad_theta : F -> Prop, at_most (u * (u * (size (lk_input l)).-1)) bad_theta /\
  forall theta (a t : nat -> F),
  exists (bad_beta : F -> Prop) (bad_gamma : F -> F -> Prop),
  [/\ at_most (2 * u) bad_beta, forall beta, at_most (2 * u) (bad_gamma beta) &
  forall beta gamma (c : lcommitted F) P lc l0 l_blind l_last,
  row_selectors P l0 l_blind l_last ->
  leaf_columns n ncols lc (fun leaf i => (P leaf).[omega ^+ i]) T ->
  compressed_asts l lc theta (lc_permuted c) ->
  (forall i, (i < n)%N -> (P (lp_pinput_leaf (lc_permuted c))).[omega ^+ i] = a i) ->
  (forall i, (i < n)%N -> (P (lp_ptable_leaf (lc_permuted c))).[omega ^+ i] = t i) ->
  vanish_on_domain omega n P (lookup_construct beta gamma l0 l_blind l_last c) ->
  ~ bad_theta theta -> ~ bad_beta beta -> ~ bad_gamma beta gamma ->
  lookup_holds n u T l].
Proof.
move=> T l /and3P [/eqP hs hwi hwt].
pose ti i := [seq row_value n T i e | e <- lk_input l].
pose tt j := [seq row_value n T j e | e <- lk_table l].
exists (fun th => exists2 i, (i < u)%N & has (fun j => collide (ti i) (tt j) th) (iota 0 u)); split.
  apply: at_most_exists => i hi.
  apply: (at_most_weak (leqnn _) (Q := fun th => exists2 j, (j < u)%N & collide (ti i) (tt j) th)).
    by move=> th /hasP [j]; rewrite mem_iota => /andP [_ hj] h; exists j.
  apply: at_most_exists => j hj; rewrite -(size_map (row_value n T i) (lk_input l)) -/(ti i); apply: collide_few.
  by rewrite !size_map.
move=> theta a t.
pose A i := compress theta (ti i); pose S j := compress theta (tt j).
exists (lk_bad_beta u a A), (lk_bad_gamma u a t A S); split; [exact: lk_bad_beta_few|exact: lk_bad_gamma_few|].
move=> beta gamma c P lc l0 l_blind l_last rs lcols [ia [ta [e1 e2 e3 e4]]] ha ht hvan nt nb ng.
have hA i : (i < n)%N -> expr_at omega P (omega ^+ i) (lp_input_coset (lc_permuted c)) = A i.
  by move=> hi; rewrite e3 (at_compress_cosets homega lcols theta i hwi e1).
have hS i : (i < n)%N -> expr_at omega P (omega ^+ i) (lp_table_coset (lc_permuted c)) = S i.
  by move=> hi; rewrite e4 (at_compress_cosets homega lcols theta i hwt e2).
have := (lookup_construct_rows homega un beta gamma (rs_l0 rs) (rs_l_last rs) (rs_l_blind rs) hA hS u0).1 hvan.
move=> [r1 r2 r3 r4 r5].
have n0 : (0 < n)%N by rewrite expn_gt0.
have R : lookup_rows u n beta gamma (fun i => (P (lc_leaf c)).[omega ^+ i]) a t A S.
  split=> //.
  - by move=> i hi; rewrite -ha ?(ltn_trans hi un) // -ht ?(ltn_trans hi un) // r3.
  - by rewrite -ha // -ht.
  move=> i hi; rewrite -ha ?(ltn_trans hi un) // -ht ?(ltn_trans hi un) // -ha ?ltn_mod //; exact: r5.
move=> i hi; have [j hj e] := lookup_rows_sound (ltnW un) R nb ng hi.
exists j => //; apply/eqP; apply: contra_notT nt => ne; exists i => //.
by apply/hasP; exists j; rewrite ?mem_iota // /collide ne; apply/eqP.
Qed.
End Sound.
Print Assumptions C29_lookup_sound.

Lemma frac_cancel (F : fieldType) (z a t x y : F) : a != 0 -> t != 0 ->
  z * ((a * t)^-1 * x * y) * a * t = z * x * y.
Proof.
move=> a0 t0; rewrite invfM -!mulrA; congr (_ * _).
rewrite mulrA -invfM [y * _]mulrC [x * _]mulrA [x * _]mulrC -mulrA mulrA.
by rewrite mulVf ?mulf_neq0 // mul1r.
Qed.

Section Complete.
Variables (F B : fieldType) (G : lmodType F) (E : env B G) (ps : params G).
Hypotheses (ok : env_ok E) (pok : params_ok E ps).
Variables (qd : nat) (d : domain F) (pk : pkey G).
Hypothesis hd : domain_new (e_rou E) (e_zeta E) (e_S E) qd (p_k ps) = Some d.
Notation vk := (pk_vk pk).
Hypothesis hdom : vk_domain vk = d.
Notation bf := (blinding_factors (vk_cs vk)).
Notation n := (2 ^ p_k ps)%N.
Notation u := (n - (bf + 1))%N.
Notation omega := (d_omega d).
Hypothesis hu : (bf + 1 < n)%N.
Variables (ncols : any -> nat) (T : any -> nat -> nat -> F) (l : lookup F).
Hypothesis hwithin : lookup_within n ncols l.
(* the polynomials registered with the evaluator of values, and the leaves of the columns in
   the two evaluators *)
Variables (value_polys : seq (seq F)) (lv lc : lleaves).
Hypothesis hv0 : value_polys != [::].
Hypothesis hvn : all (fun p => size p == n) value_polys.
Hypothesis hlv : forall a, all (fun leaf => leaf < size value_polys)%N (leaves_of lv a).
Hypothesis hvals : leaf_columns n ncols lv (fun leaf i => nth 0 (nth [::] value_polys leaf) i) T.
Hypothesis hlc : forall a c, (c < ncols a)%N -> (c < size (leaves_of lc a))%N.

Notation input theta i := (compress theta [seq row_value n T i e | e <- lk_input l]).
Notation table theta i := (compress theta [seq row_value n T i e | e <- lk_table l]).

(* beta and gamma for which some denominator of the running product is zero *)
Definition lk_degenerate (theta beta gamma : F) : Prop := exists2 i, (i < u)%N &
  input theta i + beta = 0 \/ table theta i + gamma = 0.

Lemma compress_expressionsE theta es : all (expr_within n ncols) es ->
  exists2 asts, sequence [seq leaf_ast lc e | e <- es] = Some asts &
  compress_expressions E d value_polys lv lc theta es = Some (compress_cosets theta asts,
    mkseq (fun i => compress theta [seq row_value n T i e | e <- es]) n).
Proof.
move=> hes; have hn := ok_n (dok ok hd); have n0 : (0 < n)%N by rewrite expn_gt0.
have [va e1 e2] := evaluate_compress (e_zeta E) (ok_threads ok) hn n0 hv0 hvn hvals hlv theta hes.
have [ca e3] : exists ca, sequence [seq leaf_ast lc e | e <- es] = Some ca.
  elim: es hes {va e1 e2} => [|e es IH] /=; first by exists [::].
  move=> /andP [he /IH [ca ->]]; have [a [-> _ _]] := leaf_astE hlc he.
  by exists (a :: ca).
by exists ca => //; rewrite /compress_expressions e1 e3 /= e2.
Qed.

Lemma hn_dom : d_n (vk_domain vk) = p_n ps.
Proof. by rewrite hdom (ok_n (dok ok hd)) (ps_n pok). Qed.

(* The prover rejects the lookup exactly if some compressed input is missing. *)
Theorem C28_lookup_rejected : forall theta polys s,
  (exists2 i, (i < u)%N & forall j, (j < u)%N -> input theta i <> table theta j) ->
  commit_permuted E ps pk value_polys lv lc theta l polys s = Err EConstraintSystemFailure.
Proof.
move=> theta polys s [i hi hm].
have /and3P [_ hwi hwt] := hwithin.
have [ia e1 e2] := compress_expressionsE theta hwi.
have [ta e3 e4] := compress_expressionsE theta hwt.
rewrite /commit_permuted hdom e2 e4 /= /mbind /=.
have h := @C27_permute_expression_pair F B G E ps ok pk (mkseq (fun i => input theta i) n) (mkseq (fun i => table theta i) n) s.
have := h; rewrite (ps_n pok) !size_mkseq => /(_ (ltnW hu) _ erefl erefl).
rewrite hn_dom (ps_n pok) => /(_ erefl); case: ifP => [/allP ha|_ ->] //.
have un : (u <= n)%N by exact: leq_subr.
have /ha : input theta i \in take u (mkseq (fun i => input theta i) n).
  by rewrite -[X in X \in _](@nth_mkseq _ 0 (fun i => input theta i) n) ?(leq_trans hi) // -(nth_take (n0 := u) _ hi) mem_nth // size_takel ?size_mkseq.
move=> /(nthP 0) [j]; rewrite size_takel ?size_mkseq // => hj.
rewrite nth_take // nth_mkseq ?(leq_trans hj) // => e.
by case: (hm j hj).
Qed.

(* every compressed input is one of the compressed table values *)
Definition contained (theta : F) : Prop :=
  forall i, (i < u)%N -> exists2 j, (j < u)%N & input theta i = table theta j.
Lemma lookup_holds_contained theta : lookup_holds n u T l -> contained theta.
Proof. by move=> h i hi; have [j hj e] := h i hi; exists j => //; rewrite e. Qed.

(* Completeness.  If every compressed input is in the compressed table, the permuted columns
   are committed, whatever the blinding; then the product column is committed, and for all but
   degenerate beta and gamma the five expressions vanish on the domain. *)
Theorem C28_lookup_compressed : forall theta polys s, contained theta ->
  wp (commit_permuted E ps pk value_polys lv lc theta l polys) s (fun r s' =>
    [/\ extends E ps d polys r.2,
        registered E ps d r.2 (lp_pinput_poly r.1) (lp_pinput_leaf r.1) /\
        registered E ps d r.2 (lp_ptable_poly r.1) (lp_ptable_leaf r.1),
        compressed_asts l lc theta r.1,
        (exists c1 c2, [/\ replays s s' (read_permuted_commitments E) (c1, c2),
           commit E ps (lp_pinput_poly r.1) (lp_pinput_blind r.1) = Some c1 &
           commit E ps (lp_ptable_poly r.1) (lp_ptable_blind r.1) = Some c2]) &
        forall beta gamma polys1 s1,
        wp (commit_product E ps pk beta gamma r.1 polys1) s1 (fun r2 s2 =>
          [/\ lc_permuted r2.1 = r.1, extends E ps d polys1 r2.2, registered E ps d r2.2 (lc_poly r2.1) (lc_leaf r2.1),
              (exists2 c, replays s1 s2 (read_point E) c & commit E ps (lc_poly r2.1) (lc_blind r2.1) = Some c) &
              forall P l0 l_blind l_last, ~ lk_degenerate theta beta gamma ->
              row_selectors (p_k ps) omega u P l0 l_blind l_last ->
              leaf_columns n ncols lc (fun leaf i => (P leaf).[omega ^+ i]) T ->
              P (lp_pinput_leaf r.1) = Poly (lp_pinput_poly r.1) ->
              P (lp_ptable_leaf r.1) = Poly (lp_ptable_poly r.1) ->
              P (lc_leaf r2.1) = Poly (lc_poly r2.1) ->
              vanish_on_domain omega n P (lookup_construct beta gamma l0 l_blind l_last r2.1)])]).
Proof.
move=> theta polys s holds.
have /and3P [_ hwi hwt] := hwithin.
have [ia e1 e2] := compress_expressionsE theta hwi.
have [ta e3 e4] := compress_expressionsE theta hwt.
have hn : d_n d = n by rewrite -hdom hn_dom (ps_n pok).
have hbf : (bf + 1 <= n)%N := ltnW hu.
have n0 : (0 < n)%N by rewrite expn_gt0.
have un : (u < n)%N by rewrite ltn_subrL n0 addn1.
have u0 : (0 < u)%N by rewrite subn_gt0.
set A := mkseq (fun i => input theta i) n; set S := mkseq (fun i => table theta i) n.
have sA : size A = n by rewrite size_mkseq.
have sS : size S = n by rewrite size_mkseq.
rewrite /commit_permuted hdom; apply: wp_bind; apply: (wp_unwrap e2); apply: wp_bind; apply: (wp_unwrap e4).
rewrite -/A -/S /=; apply: wp_bind.
have := @C27_permute_expression_pair F B G E ps ok pk A S s.
rewrite (ps_n pok) sA sS => /(_ hbf) /=; rewrite hn_dom (ps_n pok) => /(_ erefl erefl erefl).
case: ifP => [_|/negbT /allPn [x]]; last first.
  move=> /(nthP 0) [i]; rewrite size_takel ?sA ?(ltnW un) // => hi <-.
  have [j hj e] := holds i hi.
  have -> : nth 0 (take u A) i = nth 0 (take u S) j.
    by rewrite !nth_take // !nth_mkseq ?(ltn_trans hi un) ?(ltn_trans hj un) // e.
  by rewrite mem_nth // size_takel ?sS // ltnW.
move=> [a [t [ep [sa st] [pa pt] lu _]]].
apply: (wp_run ep); set sx := Wst _ _ _.
have sil : silent s sx by [].
have [ap [sap eap vap cap]] := lagrange_facts ok pok hd sa.
have [tp [stp etp vtp ctp]] := lagrange_facts ok pok hd st.
rewrite /commit_values.
apply: wp_bind; apply: wp_bind; apply: (wp_unwrap eap); apply: wp_bind; apply: wpr_draw => b1 s1 h1.
apply: wp_bind; apply: (wp_unwrap (cap b1)); apply: wp_ret.
apply: wp_bind; apply: wp_bind; apply: (wp_unwrap etp); apply: wp_bind; apply: wpr_draw => b2 s2 h2.
apply: wp_bind; apply: (wp_unwrap (ctp b2)); apply: wp_ret => /=.
apply: wp_bind; apply: (wpr_write_point ok) => s3 h3; apply: wp_bind; apply: (wpr_write_point ok) => s4 h4.
apply: wp_bind; apply: (wp_unwrap (coset_ofE ok hd sap)) => /=.
apply: wp_bind; apply: (wp_unwrap (coset_ofE ok hd stp)); apply: wp_ret.
split.
- exists [:: coset_of E d ap; coset_of E d tp]; first by rewrite /= -!cats1 -catA.
  by move=> c; rewrite !inE => /orP [] /eqP ->; [exists ap|exists tp] => //; rewrite (coset_ofE ok hd).
- split; split=> //=; rewrite ?size_rcons ?ltnS ?leqnSn //.
    by rewrite (coset_ofE ok hd sap) !nth_rcons ?size_rcons ltnS leqnn ltnn eqxx.
  by rewrite (coset_ofE ok hd stp) nth_rcons size_rcons ltnn eqxx.
- by exists ia, ta.
- exists (commitment_of ps ap b1), (commitment_of ps tp b2); split=> //=.
  + apply: (replays_silent (silent_trans sil (silent_trans h1 h2))).
    by apply: replays_bind h3 _; apply: replays_bind h4 _; exact: replays_ret.
  + by rewrite commitE // (ps_g pok) sap.
  by rewrite commitE // (ps_g pok) stp.
set p := LPermuted _ _ _ _ _ _ _ _ _ _ _ _; rewrite -[(p, _).1]/p.
move=> beta gamma polys1 s5; rewrite /commit_product hdom (ps_n pok).
pose fr i := ((beta + a`_i) * (gamma + t`_i))^-1 * (A`_i + beta) * (S`_i + gamma).
have efr : lookup_fractions E n beta gamma p = Some (mkseq fr n).
  rewrite /lookup_fractions /= sa st sA sS.
  rewrite parallelize_mapi ?size_nseq ?(ok_threads ok) //.
  rewrite nseq_mkseq mapi_mkseq.
  have -> : mkseq (fun i => if (i < n)%N && (i < n)%N then (beta + a`_i) * (gamma + t`_i) else 0) n =
            mkseq (fun i => (beta + a`_i) * (gamma + t`_i)) n by apply: eq_in_mkseq => i ->.
  rewrite [obind _ _]/= /batch_invert -map_comp -/(mkseq _ _).
  rewrite parallelize_mapi ?size_mkseq ?(ok_threads ok) // mapi_mkseq.
  by congr Some; apply: eq_in_mkseq => i hi; rewrite hi /fr.
apply: wp_bind; apply: (wp_unwrap efr).
have bn : (bf <= n)%N by apply: leq_trans hbf; exact: leq_addr.
rewrite bn [~~ _]/=; apply: wp_bind; apply: wpr_draws => rs s6 h6; rewrite size_iota => srs.
set z := _ ++ rs.
have ez : z = take (n - bf) (1 :: scanl *%R 1 (mkseq fr n)) ++ rs.
  by rewrite /z -[scanl _ _ (_ :: _)]/(1 * 1 :: scanl *%R (1 * 1) (mkseq fr n)) mulr1.
have sz0 : size (take (n - bf) (1 :: scanl *%R 1 (mkseq fr n))) = (n - bf)%N.
  rewrite size_takel // -[size (_ :: _)]/((size _).+1) size_scanl size_mkseq; apply: leqW; exact: leq_subr.
have sz : size z = n by rewrite ez size_cat sz0 srs subnK.
have vz i : (i <= u)%N -> z`_i = \prod_(q < i) fr q.
  move=> hi; have hi' : (i < n - bf)%N.
    by rewrite (leq_ltn_trans hi) // subnDA subn1 prednK // subn_gt0 -addn1.
  rewrite ez nth_cat sz0 hi' nth_take // scanl_nth ?size_mkseq ?mul1r; last first.
    by rewrite (leq_trans (ltnW hi')) // leq_subr.
  by apply: eq_bigr => q _; rewrite nth_mkseq // (leq_trans (ltn_ord q)) // (leq_trans hi) // ltnW.
rewrite sz hn eqxx /=.
apply: wp_bind; apply: wpr_draw => b3 s7 h7.
have [zp [szp ezp vzp czp]] := lagrange_facts ok pok hd sz.
apply: wp_bind; apply: (wp_unwrap (czp b3)); apply: wp_bind; apply: (wp_unwrap ezp).
apply: wp_bind; apply: (wp_unwrap (coset_ofE ok hd szp)) => /=.
apply: wp_bind; apply: (wpr_write_point ok) => s8 h8; apply: wp_ret; split=> //=.
- exists [:: coset_of E d zp]; first by rewrite cats1.
  by move=> c; rewrite inE => /eqP ->; exists zp => //; rewrite (coset_ofE ok hd).
- split=> //; first by rewrite size_rcons.
  by rewrite (coset_ofE ok hd szp) nth_rcons ltnn eqxx.
- exists (commitment_of ps zp b3); first exact: replays_silent (silent_trans h6 h7) h8.
  by rewrite commitE // (ps_g pok) szp.
move=> P l0 l_blind l_last ndeg rs0 lcols Pa Pt Pz.
have hw := ok_omega_prim (dok ok hd).
set c := LCommitted _ _ _ _.
have hA i : (i < n)%N -> expr_at omega P (omega ^+ i) (lp_input_coset (lc_permuted c)) = input theta i.
  by move=> hi; exact: (at_compress_cosets hw lcols theta i hwi e1).
have hS i : (i < n)%N -> expr_at omega P (omega ^+ i) (lp_table_coset (lc_permuted c)) = table theta i.
  by move=> hi; exact: (at_compress_cosets hw lcols theta i hwt e3).
apply: (lookup_construct_rows hw un beta gamma (rs_l0 rs0) (rs_l_last rs0) (rs_l_blind rs0) hA hS u0).2 => /=.
have ta_ i : (i < u)%N -> (take u a)`_i = a`_i by move=> hi; rewrite nth_take.
have tt_ i : (i < u)%N -> (take u t)`_i = t`_i by move=> hi; rewrite nth_take.
have nea i : (i < u)%N -> a`_i + beta != 0.
  move=> hi; have : a`_i \in take u A.
    by rewrite -(perm_mem pa) -ta_ // mem_nth // size_takel ?sa // ltnW.
  move=> /(nthP 0) [j]; rewrite size_takel ?sA ?(ltnW un) // => hj; rewrite nth_take // nth_mkseq ?(ltn_trans hj un) // => <-.
  by apply/eqP => h; apply: ndeg; exists j => //; left.
have net i : (i < u)%N -> t`_i + gamma != 0.
  move=> hi; have : t`_i \in take u S.
    by rewrite -(perm_mem pt) -tt_ // mem_nth // size_takel ?st // ltnW.
  move=> /(nthP 0) [j]; rewrite size_takel ?sS ?(ltnW un) // => hj; rewrite nth_take // nth_mkseq ?(ltn_trans hj un) // => <-.
  by apply/eqP => h; apply: ndeg; exists j => //; right.
have zE i : (i <= u)%N -> (P (size polys1)).[omega ^+ i] = \prod_(q < i) fr q.
  by move=> hi; rewrite Pz vzp ?vz // (leq_ltn_trans hi un).
have step i : (i < u)%N -> (P (size polys1)).[omega ^+ i.+1] * (a`_i + beta) * (t`_i + gamma) =
   (P (size polys1)).[omega ^+ i] * (input theta i + beta) * (table theta i + gamma).
  move=> hi; rewrite !zE // 1?ltnW // big_ord_recr /= /fr !nth_mkseq ?(ltn_trans hi un) //.
  by rewrite [beta + _]addrC [gamma + _]addrC; apply: frac_cancel; [exact: nea|exact: net].
have zu : (P (size polys1)).[omega ^+ u] = 1.
  apply: (lookup_end (u := u) (beta := beta) (gamma := gamma) (z := fun i => (P (size polys1)).[omega ^+ i]) pa pt) => /=.
  - by rewrite size_takel ?sA // ltnW.
  - by rewrite size_takel ?sS // ltnW.
  - by rewrite zE // big_ord0.
  - move=> i hi; rewrite ta_ // tt_ // step // !nth_take // !nth_mkseq ?(ltn_trans hi un) //.
  by move=> i hi; rewrite ta_ // tt_ // nea // net.
split.
- by rewrite zE // big_ord0.
- by rewrite zu expr1n.
- by move=> i hi; rewrite Pa Pt vap ?vtp ?(ltn_trans hi un) // step.
- rewrite Pa Pt vap // vtp //; by case: (lu 0%N u0) => [|[]].
move=> i hi; rewrite Pa Pt !vap ?vtp ?ltn_mod ?(ltn_trans hi un) //.
case: (lu i hi) => [|[i0 ->]]; [by left|right].
rewrite -[in RHS](prednK i0) addSn -pred_Sn modnDr modn_small //.
exact: leq_ltn_trans (leq_pred _) (ltn_trans hi un).
Qed.

(* If every usable input tuple is in the table, this holds for every theta. *)
Theorem C28_lookup_complete : lookup_holds n u T l -> forall theta polys s,
  wp (commit_permuted E ps pk value_polys lv lc theta l polys) s (fun r s' =>
    [/\ extends E ps d polys r.2,
        registered E ps d r.2 (lp_pinput_poly r.1) (lp_pinput_leaf r.1) /\
        registered E ps d r.2 (lp_ptable_poly r.1) (lp_ptable_leaf r.1),
        compressed_asts l lc theta r.1,
        (exists c1 c2, [/\ replays s s' (read_permuted_commitments E) (c1, c2),
           commit E ps (lp_pinput_poly r.1) (lp_pinput_blind r.1) = Some c1 &
           commit E ps (lp_ptable_poly r.1) (lp_ptable_blind r.1) = Some c2]) &
        forall beta gamma polys1 s1,
        wp (commit_product E ps pk beta gamma r.1 polys1) s1 (fun r2 s2 =>
          [/\ lc_permuted r2.1 = r.1, extends E ps d polys1 r2.2, registered E ps d r2.2 (lc_poly r2.1) (lc_leaf r2.1),
              (exists2 c, replays s1 s2 (read_point E) c & commit E ps (lc_poly r2.1) (lc_blind r2.1) = Some c) &
              forall P l0 l_blind l_last, ~ lk_degenerate theta beta gamma ->
              row_selectors (p_k ps) omega u P l0 l_blind l_last ->
              leaf_columns n ncols lc (fun leaf i => (P leaf).[omega ^+ i]) T ->
              P (lp_pinput_leaf r.1) = Poly (lp_pinput_poly r.1) ->
              P (lp_ptable_leaf r.1) = Poly (lp_ptable_poly r.1) ->
              P (lc_leaf r2.1) = Poly (lc_poly r2.1) ->
              vanish_on_domain omega n P (lookup_construct beta gamma l0 l_blind l_last r2.1)])]).
Proof. by move=> h theta polys s; exact: C28_lookup_compressed (lookup_holds_contained theta h). Qed.
End Complete.
Print Assumptions C28_lookup_compressed.
Print Assumptions C28_lookup_complete.

(* Non-vacuity: a lookup of two expressions over F_97, eight rows of which two are usable. *)
Definition cs_lk : cs F97 :=
  {| num_fixed := 2; num_advice := 1; num_instance := 0; num_selectors := 0; selector_map := [::]; gates := [::];
     advice_queries := [:: (0%N, 0)]; num_advice_queries := [:: 1%N]; instance_queries := [::]; fixed_queries := [:: (0%N, 0); (1%N, 0)];
     permutation := [::]; lookups := [::]; constants := [::]; minimum_degree := None |}.
Definition lk97 : lookup F97 :=
  Lookup [:: EAdvice F97 0 0 0; EScaled (EAdvice F97 0 0 0) 2%:R] [:: EFixed F97 0 0 0; EFixed F97 1 1 0].
Definition lk_fixed97 : seq (seq F97) :=
  [:: [:: 7%:R; 5%:R; 0; 0; 0; 0; 0; 0]; [:: 14%:R; 10%:R; 0; 0; 0; 0; 0; 0]].
Definition lk_advice97 (a : F97) : seq (seq F97) := [:: [:: 5%:R; a; 1; 2%:R; 3%:R; 4%:R; 5%:R; 6%:R]].
Definition lk_leaves97 := LLeaves [:: 2%N] [:: 0; 1]%N [::].
Definition lk_pk97 (d : domain F97) : pkey G97 :=
  PKey (VKey d [::] [::] cs_lk 4 0) [::] [::] [::] [::] [::] [::] [::] [::] [::].
Definition lookup_run97 (a : F97) : option (seq F97 * seq F97 * bool) + option error :=
  if params_new E97 3 is Some ps then
  if domain_new (e_rou E97) (e_zeta E97) (e_S E97) 3 3 is Some d then
  match commit_permuted E97 ps (lk_pk97 d) (lk_fixed97 ++ lk_advice97 a) lk_leaves97 lk_leaves97 3%:R lk97 [::] (Wst [:: 9%N] [:: 1%N] 0) with
  | Ok (r, s) =>
    if commit_product E97 ps (lk_pk97 d) 2%:R 3%:R r.1 r.2 s is Ok (r2, _) then
      inl (Some (take 2 (lp_pinput r.1), take 2 (lp_ptable r.1), eval_polynomial (lc_poly r2.1) (d_omega d ^+ 2) == 1))
    else inl None
  | Err e => inr (Some e)
  | Panic => inr None
  end else inl None else inl None.
Example C28_run : lookup_run97 7%:R = inl (Some ([:: 25%:R; 35%:R], [:: 25%:R; 35%:R], true)).
Proof. by vm_compute. Qed.
Example C28_run_repeated : lookup_run97 5%:R = inl (Some ([:: 25%:R; 25%:R], [:: 25%:R; 35%:R], true)).
Proof. by vm_compute. Qed.
Example C28_run_bad : lookup_run97 6%:R = inr (Some EConstraintSystemFailure).
Proof. by vm_compute. Qed.

(* the hypotheses of C28 and C29 *)
Definition lk_T97 (a : any) (c i : nat) : F97 :=
  nth 0 (nth [::] (match a with Advice => lk_advice97 7%:R | Fixed => lk_fixed97 | Instance => [::] end) c) i.
Definition lk_ncols (a : any) : nat := match a with Advice => 1%N | Fixed => 2%N | Instance => 0%N end.
Lemma lk_key97 c i (vec : nat -> seq F97) : (c < 3)%N -> vec 0%N = nth [::] lk_fixed97 0 -> vec 1%N = nth [::] lk_fixed97 1 ->
  vec 2%N = nth [::] (lk_advice97 7%:R) 0 -> nth 0 (vec c) i = nth 0 (nth [::] (lk_fixed97 ++ lk_advice97 7%:R) c) i.
Proof. by case: c => [|[|[|c]]] // _ e0 e1 e2; rewrite ?e0 ?e1 ?e2. Qed.
Lemma lk_cols97 : leaf_columns 8 lk_ncols lk_leaves97 (fun leaf i => nth 0 (nth [::] (lk_fixed97 ++ lk_advice97 7%:R) leaf) i) lk_T97.
Proof. by move=> [|| ] [|[|c]] // hc; split=> // i hi. Qed.
Lemma lk_holds97 : lookup_holds 8 2 lk_T97 lk97.
Proof. move=> [|[|i]] // hi; [exists 1%N => //; by vm_compute|exists 0%N => //; by vm_compute]. Qed.
Lemma lk_nondeg97 i : (i < 2)%N ->
 compress 3%:R [seq row_value 8 lk_T97 i e | e <- lk_input lk97] + 2%:R = 0 \/
 compress 3%:R [seq row_value 8 lk_T97 i e | e <- lk_table lk97] + 3%:R = 0 -> False.
Proof. by case: i => [|[|i]] // _ []; move/eqP; vm_compute. Qed.
Lemma lk_lt97 a c : (c < lk_ncols a)%N -> (nth 0 (leaves_of lk_leaves97 a) c < 3)%N.
Proof. by case: a c => [|| ] [|[|c']]. Qed.
Example C28_C29_hypotheses : exists ps d,
  [/\ params_ok E97 ps, p_k ps = 3%N, domain_new (e_rou E97) (e_zeta E97) (e_S E97) 3 (p_k ps) = Some d,
      (8 - (blinding_factors cs_lk + 1) = 2)%N &
  [/\ lookup_within 8 lk_ncols lk97, lookup_holds 8 2 lk_T97 lk97,
      leaf_columns 8 lk_ncols lk_leaves97 (fun leaf i => nth 0 (nth [::] (lk_fixed97 ++ lk_advice97 7%:R) leaf) i) lk_T97,
      ~ lk_degenerate ps (lk_pk97 d) lk_T97 lk97 3%:R 2%:R 3%:R &
      exists P, row_selectors 3 (d_omega d) 2 P 3 4 5 /\
        leaf_columns 8 lk_ncols lk_leaves97 (fun leaf i => (P leaf).[d_omega d ^+ i]) lk_T97]].
Proof.
have [ps eps [pok [ek _]]] := @C11_params_new _ _ _ E97 E97_ok 3 isT isT.
have [d hd] : exists d, domain_new (e_rou E97) (e_zeta E97) (e_S E97) 3 3 = Some d.
  by have [[_ H] _] := C03_domain_new 3 3 constants97; apply: H.
have hd' : domain_new (e_rou E97) (e_zeta E97) (e_S E97) 3 (p_k ps) = Some d by rewrite ek.
exists ps, d; split; [exact: pok|exact: ek|exact: hd'|by []|].
split; [by vm_compute|exact: lk_holds97|exact: lk_cols97| |].
  by rewrite /lk_degenerate ek => -[i]; exact: lk_nondeg97.
pose vec (l : nat) : seq F97 := match l with
  | 0%N => nth [::] lk_fixed97 0 | 1%N => nth [::] lk_fixed97 1 | 2%N => nth [::] (lk_advice97 7%:R) 0
  | 3%N => mkseq (fun i => (i == 0%N)%:R) 8 | 4%N => mkseq (fun i => (2 < i)%N%:R) 8 | _ => mkseq (fun i => (i == 2%N)%:R) 8 end.
have sv l : size (vec l) = 8%N.
  case: l => [|[|[|[|[|l]]]]]; reflexivity.
have sv' l : size (vec l) = (2 ^ p_k ps)%N by rewrite ek; exact: sv.
exists (fun l => Poly (odflt [::] (lagrange_to_coeff (e_threads E97) d (vec l)))).
have hP l i : (i < 8)%N -> (Poly (odflt [::] (lagrange_to_coeff (e_threads E97) d (vec l)))).[d_omega d ^+ i] = (vec l)`_i.
  have [zp [_ e h _]] := lagrange_facts E97_ok pok hd' (sv' l); rewrite e /=; rewrite ek in h; exact: h.
split.
  split=> i hi.
  - rewrite (hP 3%N i hi) [vec _]/= (nth_mkseq _ _ hi); reflexivity.
  - rewrite (hP 5%N i hi) [vec _]/= (nth_mkseq _ _ hi); reflexivity.
  - rewrite (hP 4%N i hi) [vec _]/= (nth_mkseq _ _ hi); reflexivity.
move=> a c hc; have [h1 h2] := lk_cols97 hc; split; first exact: h1.
move=> i hi; rewrite (hP _ _ hi) -(h2 _ hi); apply: lk_key97; [exact: lk_lt97|reflexivity|reflexivity|reflexivity].
Qed.
