(* C52: an accepted proof of a false statement needs a false opening claim or an unlikely challenge.
   The keys are those made by keygen_vk and keygen_pk for a configured circuit; the proof is any
   string of bytes. *)
Set Warnings "-notation-overridden,-ambiguous-paths".
From mathcomp Require Import all_ssreflect all_algebra.
From Verif Require Import Util L_Chunks M_Poly L_Poly M_Domain L_Domain P_Domain M_Evaluator S_Evaluator P_Evaluator M_Assigned P_Assigned M_Env M_Transcript
  L_Transcript L_Mono M_Commit S_Commit L_Commit P_Commit L_WP L_WPR M_IPA M_Multiopen P_Multiopen M_Circuit S_Circuit P_Circuit M_Selectors S_Selectors L_Selectors P_Selectors
  M_Copy L_Copy P_Copy M_Keys M_Permutation S_Permutation M_Lookup L_Sigma P_Sigma L_PermRows L_PermCommit P_Permutation S_Plonk L_Expr P_Lookup M_Vanishing P_Vanishing
  M_Plonk M_Value M_Assign M_Keygen M_Mock S_Floor S_Assign L_Assign P_Assign S_Mock L_MockRun P_Prove L_Wpe L_PlonkEval L_PlonkLeaves L_PlonkRun L_PlonkQuot L_PlonkDeg
  L_PlonkKey L_PlonkKeygen L_PlonkStages L_PlonkTrace L_PlonkSound S_Count L_LookupMath.
Import GRing.Theory.
Set Implicit Arguments.
Unset Strict Implicit.
Local Open Scope ring_scope.

(* Q holds of all values but at most k *)
Definition all_but (T : eqType) (k : nat) (Q : T -> Prop) : Prop :=
  exists2 bad : T -> Prop, at_most k bad & forall c, ~ bad c -> Q c.
Lemma all_but_weak (T : eqType) a b (Q R : T -> Prop) : (a <= b)%N -> (forall c, Q c -> R c) -> all_but a Q -> all_but b R.
Proof. by move=> hab h [bad h1 h2]; exists bad => [|c /h2/h //]; exact: at_most_weak hab _ h1. Qed.
Lemma all_but_all (T : eqType) k (Q : T -> Prop) : (forall c, Q c) -> all_but k Q.
Proof. by move=> h; exists (fun _ => False) => // l _; case: l => [//|c l] /(_ c (mem_head _ _)). Qed.

Section Defs.
Variables (F B : fieldType) (G : lmodType F) (E : env B G) (ps : params G).
Notation n := (2 ^ p_k ps)%N.
Variables (vk : vkey G) (pk : pkey G).
Notation m := (vk_cs vk).
Notation D := (vk_cs_degree vk).
Notation u := (n - (blinding_factors m + 1))%N.
Notation omega := (d_omega (vk_domain vk)).
(* the public inputs, and the polynomials of degree less than n which take them as values *)
Variable instances : seq (seq (seq F)).
Notation np := (size instances).
Notation polys := (nat -> nat -> {poly F}).
Definition short (f : polys) : Prop := forall i c, (size (f i c) <= n)%N.
Variable public : polys.
Definition public_polys : Prop := short public /\
  forall i c r, (r < n)%N -> (public i c).[omega ^+ r] = nth 0 (nth [::] (nth [::] instances i) c) r.

(* the table of circuit i, for the advice polynomials adv *)
Definition table (adv : polys) (i : nat) (a : any) (c r : nat) : F :=
  match a with
  | Advice => (adv i c).[omega ^+ r]
  | Fixed => nth 0 (nth [::] (pk_fixed_values pk) c) r
  | Instance => nth 0 (nth [::] (nth [::] instances i) c) r
  end.

(* What the opening argument is to establish: the polynomial opened under each key.  Those of the public inputs, the
   fixed columns and the permutation are given; the others are the prover's. *)
Definition committed (adv pin ptab zperm zlook : polys) (rnd h : {poly F}) (k : qkey) : {poly F} :=
  let: (kind, (i, c)) := k in
  match kind with
  | 0 => public i c
  | 1 => adv i c
  | 2 => zperm i c
  | 3 => zlook i c
  | 4 => pin i c
  | 5 => ptab i c
  | 6 => Poly (nth [::] (pk_fixed_polys pk) c)
  | 7 => Poly (nth [::] (pk_perm_polys pk) c)
  | 8 => h
  | _ => rnd
  end%N.
Definition claims_hold (f : qkey -> {poly F}) (vt : vtrace B G) : bool :=
  all (fun q : vquery B G qkey_eqType => q_eval q == (f (q_key q)).[q_point q]) (vt_queries vt).

(* how many values of each challenge are bad *)
Definition bad_theta : nat := u * (u * \sum_(l <- lookups m) (size (lk_input l)).-1).
Definition bad_beta : nat := (size (permutation m) * u) * (size (permutation m) * u) + 2 * u.
Definition bad_gamma : nat := 2 * (size (permutation m) * u) + 2 * u.
Definition bad_y : nat :=
  np * (size (flatten [seq g_polys g | g <- gates m]) + (2 * size (chunks (D - 2) (permutation m)) + 1) + 5 * size (lookups m)).
Definition bad_x : nat := (n * D).-1.

(* The verdict on y, the quotient pieces and x, once everything else is committed *)
Definition refuted (theta beta gamma : F) (f : {poly F} -> qkey -> {poly F}) : Prop :=
  all_but bad_y (fun y => forall pieces, size pieces = (D - 1)%N -> all (fun p : seq F => size p == n) pieces ->
  all_but bad_x (fun x => forall s vt s',
    verify_proof_trace E ps vk instances s = Ok (vt, s') ->
    [/\ vt_theta vt = theta, vt_beta vt = beta, vt_gamma vt = gamma, vt_y vt = y & vt_x vt = x] ->
    ~~ claims_hold (f (recombine n pieces)) vt)).

End Defs.

(* the polynomials of the public inputs exist *)
Lemma public_exists (F B : fieldType) (G : lmodType F) (E : env B G) (ps : params G) (ok : env_ok E) (pok : params_ok E ps)
    (vk : vkey G) qd (hd : domain_new (e_rou E) (e_zeta E) (e_S E) qd (p_k ps) = Some (vk_domain vk)) instances :
  exists public, public_polys ps vk instances public.
Proof.
pose vals i c := mkseq (nth 0 (nth [::] (nth [::] instances i) c)) (2 ^ p_k ps).
pose p i c := odflt [::] (lagrange_to_coeff (e_threads E) (vk_domain vk) (vals i c)).
have h i c := lagrange_facts ok pok hd (size_mkseq _ _ : size (vals i c) = (2 ^ p_k ps)%N).
exists (fun i c => Poly (p i c)); split=> [i c|i c r hr]; have [zp [sz ez vz _]] := h i c; rewrite /p ez /=.
  by apply: leq_trans (size_Poly _) _; rewrite sz.
by rewrite vz // nth_mkseq.
Qed.

Section Core.
Variables (F B : fieldType) (G : lmodType F) (E : env B G) (ps : params G).
Hypotheses (ok : env_ok E) (pok : params_ok E ps).
Notation n := (2 ^ p_k ps)%N.
Variables (pk : pkey G) (calls : seq copy_call).
Notation vk := (pk_vk pk).
Notation m := (vk_cs vk).
Notation D := (vk_cs_degree vk).
Notation u := (n - (blinding_factors m + 1))%N.
Notation omega := (d_omega (vk_domain vk)).
Hypothesis hk : key_ok E ps (vk_domain vk) pk calls.
Hypothesis hcalls : forall c, List.In c calls -> (cc_lc c \in permutation m) && (cc_rc c \in permutation m).
Variable order : nat.
Hypotheses (odd_order : odd order) (hdelta : order.-primitive_root (e_delta E)).
Hypothesis horder : (size (permutation m) <= order)%N.
Variable instances : seq (seq (seq F)).
Notation np := (size instances).
Notation polys := (nat -> nat -> {poly F}).
Notation short := (short ps).
Variable public : polys.
Hypothesis hpub : public_polys ps vk instances public.
Variables (i : nat) (adv : polys).
Hypotheses (hi : (i < np)%N) (s1 : short adv).
Notation T := (table vk pk instances adv i).
Notation refuted := (refuted E ps vk instances).

Section Polys.
Variables (pin ptab zperm zlook : polys) (rnd : {poly F}).
Hypotheses (s2 : short pin) (s3 : short ptab) (s4 : short zperm) (s5 : short zlook) (s6 : (size rnd <= n)%N).
Notation cm := (committed pk public adv pin ptab zperm zlook rnd).
Notation cp := (cm 0).
Lemma cp_size k : (size (cp k) <= n)%N.
Proof.
have s0 p : size p = n -> (size (Poly p : {poly F}) <= n)%N by move=> <-; exact: size_Poly.
have hn (ss : seq (seq F)) c : (forall j, (j < size ss)%N -> size (nth [::] ss j) = n) -> (size (Poly (nth [::] ss c) : {poly F}) <= n)%N.
  by move=> h; case: (ltnP c (size ss)) => hc; [exact/s0/h|rewrite nth_default // size_poly0].
case: hpub => sp _; case: k => [[|[|[|[|[|[|[|[|[|k]]]]]]]]] [j c]] /=; rewrite ?size_poly0 //.
- by apply: hn => t; have [co _] := fixed_cols ok pok hk; rewrite (co_polys co) => /(co_npolys co).
- by apply: hn => t; have [_ st _ _ h] := perm_key ok pok hk; rewrite st => /h [].
Qed.
Lemma cp_cols a c r : (c < ncols m a)%N -> (r < n)%N -> (cp (colkey i a c)).[omega ^+ r] = T a c r.
Proof.
case: a => /= hc hr //; last by case: hpub => _ ->.
by have [co _] := fixed_cols ok pok hk; rewrite (co_eval co).
Qed.
Lemma cm_op h k : cm h k = op cp h k.
Proof. by rewrite /op; case: k => [[|[|[|[|[|[|[|[|[|k]]]]]]]]] [j c]]. Qed.

(* if the constraints of circuit i do not vanish, the verifier refutes the claims *)
Variables theta beta gamma : F.
Lemma core (L0 Lb Ll : {poly F}) : (size L0 <= n)%N -> (size Lb <= n)%N -> (size Ll <= n)%N ->
  (forall r, (r < n)%N -> L0.[omega ^+ r] = (r == 0%N)%:R) ->
  (forall r, (r < n)%N -> Lb.[omega ^+ r] = (u < r)%:R) ->
  (forall r, (r < n)%N -> Ll.[omega ^+ r] = (r == u)%:R) ->
  ~ vanish_on_domain omega n (P cp L0 Lb Ll) (exs E pk theta beta gamma i) ->
  refuted theta beta gamma cm.
Proof.
move=> z0 zb zl v0 vb vl hn; set PP := P cp L0 Lb Ll in hn.
set es := [seq expr_poly omega PP a | a <- all_exs E pk instances theta beta gamma].
have hes : all (fun e : {poly F} => size e <= (D * n.-1).+1)%N es by exact: (exs_deg hk instances cp_size z0 zb zl).
have ses : (size es <= bad_y vk instances)%N.
  rewrite size_map /all_exs size_flatten /shape map_mkseq sumnE big_map.
  rewrite /bad_y -[X in (_ <= X * _)%N](size_iota 0 np) -sum_const.
  by apply: leq_sum => j _; exact: (exs_size hk z0 zb zl).
have hex : exists r, has (fun e : {poly F} => e.[omega ^+ r] != 0) es.
  case e: (has (fun r => has (fun p : {poly F} => p.[omega ^+ r] != 0) es) (iota 0 n)).
    by move/hasP: e => [r _ h]; exists r.
  case: hn => r hr; apply: contraFT e => hne; apply/hasP; exists r; rewrite ?mem_iota //.
  rewrite -[has _ _]negbK -all_predC; apply/negP; rewrite all_map all_flattenE => /(all_nthP [::]) /(_ i).
  rewrite size_mkseq => /(_ hi); rewrite nth_mkseq // => hall; case/negP: hne; apply: sub_all hall => a /=.
  by rewrite negbK.
have [by_ [h1 h2]] := C30_vanishing_sound ok (ko_new hk) hes hex.
exists by_; first exact: at_most_weak (leq_trans (leq_pred _) ses) (fun _ h => h) h1.
move=> y hy pieces sp hp; have [bx [h3 h4]] := h2 y pieces hy sp hp.
exists bx.
  apply: (at_most_weak _ (fun _ h => h) h3); rewrite geq_max /bad_x leqnn andbT.
  have : (0 < n)%N by rewrite expn_gt0.
  have := k_D hk; case: (n) => // n'; case: (D) => // D' _ _.
  by rewrite [n'.+1.-1]/= mulnC mulSn addSn /= leq_addl.
move=> x hx s vt s' hv [e1 e2 e3 e4 e5]; apply/negP => hc.
have [v [hsh hco]] := trace_inv hv.
have hop : all (opened (op cp (recombine n pieces))) (vt_queries vt).
  by apply: sub_all hc => q; rewrite /opened cm_op.
have [t1 t2] := trace_exprs ok pok hk z0 zb zl v0 vb vl hsh hco e1 e2 e3 hop.
rewrite -/PP -/es e4 e5 in t1 t2.
by apply: (h4 x hx); rewrite -t1.
Qed.
End Polys.

Notation cm := (committed pk public adv).
Lemma selectors : exists L0 Lb Ll : {poly F}, [/\ [/\ (size L0 <= n)%N, (size Lb <= n)%N & (size Ll <= n)%N],
  forall r, (r < n)%N -> L0.[omega ^+ r] = (r == 0%N)%:R, forall r, (r < n)%N -> Lb.[omega ^+ r] = (u < r)%:R &
  forall r, (r < n)%N -> Ll.[omega ^+ r] = (r == u)%:R].
Proof.
have [p0 [pb [pl [[z0 zb zl] _ h0 hl hb]]]] := row_selector_polys ok pok hk; exists (Poly p0), (Poly pb), (Poly pl).
by split=> //; split; apply: leq_trans (size_Poly _) _; rewrite ?z0 ?zb ?zl.
Qed.

Notation conclusion := (all_but (bad_theta ps vk) (fun theta => forall pin ptab, short pin -> short ptab ->
  all_but (bad_beta ps vk) (fun beta => all_but (bad_gamma ps vk) (fun gamma =>
  forall zperm zlook (rnd : {poly F}), short zperm -> short zlook -> (size rnd <= n)%N ->
  refuted theta beta gamma (cm pin ptab zperm zlook rnd))))).

Lemma case_gate gt : List.In gt (gates m) -> ~ gate_holds n T gt -> conclusion.
Proof.
move=> hin hg; have [L0 [Lb [Ll [[z0 zb zl] v0 vb vl]]]] := selectors.
apply: all_but_all => theta pin ptab s2 s3; apply: all_but_all => beta; apply: all_but_all => gamma zp zq rnd s4 s5 s6.
apply: (core s2 s3 s4 s5 s6 z0 zb zl v0 vb vl) => hv; apply: hg.
exact: (van_gates ok hk (cp_cols pin ptab zp zq rnd) hv hin).
Qed.
Lemma case_copy cc : List.In cc calls -> T (cc_lc cc).1 (cc_lc cc).2 (cc_lr cc) <> T (cc_rc cc).1 (cc_rc cc).2 (cc_rr cc) -> conclusion.
Proof.
move=> hin hg; have [L0 [Lb [Ll [[z0 zb zl] v0 vb vl]]]] := selectors.
apply: all_but_all => theta pin ptab s2 s3.
have [bb [bg [h1 [h2 h3]]]] := C26_permutation_sound odd_order hdelta (homega ok hk) horder (k_D hk) (k_bf1 hk) (ko_calls hk) (cellv pk T).
exists bb => [|beta nb]; first exact: at_most_weak (leq_addr _ _) (fun _ h => h) h1.
exists (bg beta) => [|gamma ng zp zq rnd s4 s5 s6]; first exact: at_most_weak (leq_addr _ _) (fun _ h => h) (h2 beta).
apply: (core s2 s3 s4 s5 s6 z0 zb zl v0 vb vl) => hv; apply: hg.
have lv := leaves_i ok pok hk v0 vb vl (fun j hj => erefl _) (cp_cols pin ptab zp zq rnd).
have hl := h3 beta gamma _ _ _ _ _ _ _ _ _ _ lv _ (pasE hk beta gamma i) (van_pas hv) nb ng.
have /andP [c1 c2] := hcalls hin.
have := hl _ (index (cc_lc cc) (permutation m), cc_lr cc) (index (cc_rc cc) (permutation m), cc_rr cc).
rewrite /cellv /= !nth_index //; apply; first by rewrite size_mkseq.
have /List.Forall_forall/(_ _ hin)/andP [r1 r2] := ko_calls hk.
exists cc => //; split=> //; apply/and4P; split=> //; [exact: leq_trans r1 (leq_subr _ _)|exact: leq_trans r2 (leq_subr _ _)].
Qed.
Lemma case_lookup j : (j < size (lookups m))%N -> ~ lookup_holds n u T (nth (Lookup [::] [::]) (lookups m) j) -> conclusion.
Proof.
move=> hj hg; have [L0 [Lb [Ll [[z0 zb zl] v0 vb vl]]]] := selectors.
have [_ _ hw _] := lookup_okj hk hj.
have u0 : (0 < u)%N by rewrite subn_gt0 (k_bf hk).
have un : (u < n)%N by rewrite ltn_subrL addn1 expn_gt0.
have [bt [h1 h2]] := C29_lookup_sound (homega ok hk) u0 un T hw.
exists bt => [|theta nt pin ptab s2 s3].
  apply: at_most_weak _ (fun _ h => h) h1; rewrite !leq_mul2l; apply/orP; right; apply/orP; right.
  elim: (lookups m) j hj {hw hg h2} => //= l ls IH [|j] hj; rewrite big_cons ?leq_addr //.
  by apply: leq_trans (IH j hj) _; exact: leq_addl.
have [bb [bg [h3 h4 h5]]] := h2 theta (fun r => (pin i j).[omega ^+ r]) (fun r => (ptab i j).[omega ^+ r]).
exists bb => [|beta nb]; first exact: at_most_weak (leq_addl _ _) (fun _ h => h) h3.
exists (bg beta) => [|gamma ng zp zq rnd s4 s5 s6]; first exact: at_most_weak (leq_addl _ _) (fun _ h => h) (h4 beta).
apply: (core s2 s3 s4 s5 s6 z0 zb zl v0 vb vl) => hv; apply: hg.
apply: (h5 beta gamma (lcom pk theta i j) (P (cm pin ptab zp zq rnd 0) L0 Lb Ll) (lc pk i) l0 lb ll) => //.
- exact: sel_rows.
- by apply: leaf_cols => a c r hc hr; exact: cp_cols.
- exact: (lasE hk theta i hj).
- by move=> r hr; rewrite P_leaf.
- by move=> r hr; rewrite P_leaf.
exact: (van_las hv hj).
Qed.

Lemma unsatisfied : ~ satisfied n u m calls T -> conclusion.
Proof.
move=> hs.
case g: (all (fun gt => all (fun r => all (fun e => row_value n T r e == 0) (g_polys gt)) (iota 0 n)) (gates m)); last first.
  have [gt [hin hne]] : exists gt, List.In gt (gates m) /\ ~~ all (fun r => all (fun e => row_value n T r e == 0) (g_polys gt)) (iota 0 n).
    elim: (gates m) g => //= gt gs IH; case h: (all _ (iota 0 n)) => /= hr.
      by have [g' [h1 h2]] := IH hr; exists g'; split=> //; right.
    by exists gt; split; [left|rewrite h].
  apply: (case_gate hin) => hg; case/negP: hne; apply/allP => r; rewrite mem_iota => /andP [_ hr]; exact: hg.
case l: (all (fun lk => all (fun r => has (fun r' => [seq row_value n T r e | e <- lk_input lk] == [seq row_value n T r' e | e <- lk_table lk]) (iota 0 u)) (iota 0 u)) (lookups m)); last first.
  have [j [hj hne]] : exists j, (j < size (lookups m))%N /\ ~~ all (fun r => has (fun r' => [seq row_value n T r e | e <- lk_input (nth (Lookup [::] [::]) (lookups m) j)] == [seq row_value n T r' e | e <- lk_table (nth (Lookup [::] [::]) (lookups m) j)]) (iota 0 u)) (iota 0 u).
    elim: (lookups m) l => //= lk ls IH; case h: (all _ (iota 0 u)) => /= hr; first by have [j [h1 h2]] := IH hr; exists j.+1; split.
    by exists 0%N; split=> //; rewrite h.
  apply: (case_lookup hj) => hg; case/negP: hne; apply/allP => r; rewrite mem_iota => /andP [_ hr].
  by have [r' hr' e] := hg r hr; apply/hasP; exists r'; rewrite ?mem_iota // e.
case c: (all (fun cc => T (cc_lc cc).1 (cc_lc cc).2 (cc_lr cc) == T (cc_rc cc).1 (cc_rc cc).2 (cc_rr cc)) calls); last first.
  have [cc [hin hne]] : exists cc, List.In cc calls /\ T (cc_lc cc).1 (cc_lc cc).2 (cc_lr cc) != T (cc_rc cc).1 (cc_rc cc).2 (cc_rr cc).
    elim: (calls) c => //= cc cs IH; case h: (_ == _) => /= hr.
      by have [c' [h1 h2]] := IH hr; exists c'; split=> //; right.
    by exists cc; split; [left|rewrite h].
  by apply: (case_copy hin); apply/eqP.
case: hs; split.
- move=> k gt hin r hr; elim: (gates m) k hin g => [[]|g0 gs IH [[->]|k hin] /= /andP [h1 h2]] //; last exact: (IH k).
  by move/allP: h1; apply; rewrite mem_iota.
- move=> k lk hin r hr; elim: (lookups m) k hin l => [[]|l0' ls IH [[->]|k hin] /= /andP [h1 h2]] //; last exact: (IH k).
  move/allP: h1 => /(_ r); rewrite mem_iota => /(_ hr) /hasP [r']; rewrite mem_iota => /andP [_ hr'] /eqP e'; by exists r'.
move=> cc; elim: (calls) c => //= c0 cs IH /andP [/eqP h1 h2] [<- //|]; exact: IH.
Qed.
End Core.

Section Sound.
Variables (F B : fieldType) (G : lmodType F) (E : env B G) (ps : params G).
Hypotheses (ok : env_ok E) (pok : params_ok E ps).
Variable digest : domain F -> seq G -> seq G -> cs F -> F.
Notation n := (2 ^ p_k ps)%N.
(* the circuit and its keys *)
Variables (ops : seq (cs_op F)) (m0 : cs F) (d0 : nat) (kg : synth F) (vk : vkey G) (pk : pkey G).
Hypothesis cf : configured (p_k ps) ops m0 d0.
Hypothesis hcols : (0 < num_fixed m0 + num_advice m0 + num_instance m0)%N.
Hypothesis hvk : keygen_vk E ps digest m0 kg = Ok vk.
Hypothesis hpk : keygen_pk E ps vk m0 kg = Ok pk.
Notation m := (vk_cs vk).
Notation u := (n - (blinding_factors m + 1))%N.
(* delta has odd order, at least the number of columns with copy constraints *)
Variable order : nat.
Hypotheses (odd_order : odd order) (hdelta : order.-primitive_root (e_delta E)).
Hypothesis horder : (size (permutation m) <= order)%N.
(* the public inputs and their polynomials *)
Variables (instances : seq (seq (seq F))) (public : nat -> nat -> {poly F}).
Hypothesis hpub : public_polys ps vk instances public.
Notation short := (short ps).
Notation claims_hold := (@claims_hold F B G).

(* The prover commits to advice polynomials adv for which some circuit is not satisfied.  Then for all but few theta,
   whatever permuted polynomials it commits to next, for all but few beta and gamma, whatever products and random
   polynomial it commits to next, for all but few y, whatever quotient pieces it commits to next, for all but few x:
   every run of the verifier with these challenges, on any bytes, which gets as far as the opening argument makes an
   opening claim which is false of the committed polynomials. *)
Theorem C52_sound tr i adv : performed (fun _ _ => unknown) kg = Ok tr -> (i < size instances)%N -> short adv ->
  ~ satisfied n u m (copies tr) (table vk pk instances adv i) ->
  all_but (bad_theta ps vk) (fun theta => forall pin ptab, short pin -> short ptab ->
  all_but (bad_beta ps vk) (fun beta => all_but (bad_gamma ps vk) (fun gamma =>
  forall zperm zlook (rnd : {poly F}), short zperm -> short zlook -> (size rnd <= n)%N ->
  all_but (bad_y vk instances) (fun y =>
  forall pieces, size pieces = (vk_cs_degree vk - 1)%N -> all (fun p : seq F => size p == n) pieces ->
  all_but (bad_x ps vk) (fun x => forall s vt s',
    verify_proof_trace E ps vk instances s = Ok (vt, s') ->
    [/\ vt_theta vt = theta, vt_beta vt = beta, vt_gamma vt = gamma, vt_y vt = y & vt_x vt = x] ->
    ~~ claims_hold (committed pk public adv pin ptab zperm zlook rnd (recombine n pieces)) vt))))).
Proof.
move=> htr hi s1 hs; have [tr' [epk htr' hk [new fr] hc]] := keygen_key_ok ok pok cf hcols hvk hpk.
move: htr; rewrite htr' => -[etr]; rewrite -{tr}etr in hs *.
have hcl c : List.In c (copies tr') -> (cc_lc c \in permutation m) && (cc_rc c \in permutation m).
  by move=> /hc /and4P [h1 h2 _ _]; have [_ _ _ _ [-> _ _]] := fr; rewrite h1 h2.
move: hk hcl hs hpub horder; rewrite -epk => hk hcl hs hp ho.
exact: (unsatisfied ok pok hk hcl odd_order hdelta ho hp hi s1 hs).
Qed.
End Sound.
Print Assumptions C52_sound.
