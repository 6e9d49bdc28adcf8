(* What verify_proof has read and computed when it succeeds up to the opening argument, for
   any bytes: the shapes of the lists, and the values forced by true opening claims. *)
Set Warnings "-notation-overridden,-ambiguous-paths".
From mathcomp Require Import all_ssreflect all_algebra.
From Verif Require Import Util L_Chunks M_Poly L_Poly M_Domain L_Domain P_Domain M_Evaluator S_Evaluator P_Evaluator M_Assigned M_Env M_Transcript
  L_Transcript M_Commit S_Commit L_Commit P_Commit L_WP L_WPR M_IPA M_Multiopen P_Multiopen M_Circuit S_Circuit P_Circuit M_Selectors S_Selectors L_Selectors M_Copy L_Copy
  M_Keys M_Permutation S_Permutation M_Lookup L_Sigma P_Sigma L_PermCommit P_Permutation S_Plonk L_Expr P_Lookup M_Vanishing P_Vanishing
  M_Plonk M_Assign M_Keygen S_Mock P_Prove L_Wpe L_PlonkEval L_PlonkDeg L_PlonkKey L_PlonkStages.
Import GRing.Theory.
Set Implicit Arguments.
Unset Strict Implicit.
Local Open Scope ring_scope.

Lemma mmap_inv (S A C : Type) (f : A -> M S C) (Q : C -> Prop) (y0 : C) l s ys s' :
  mmap f l s = Ok (ys, s') -> (forall a s y s', f a s = Ok (y, s') -> Q y) ->
  size ys = size l /\ forall i, (i < size l)%N -> Q (nth y0 ys i).
Proof.
move=> + h; elim: l s ys s' => [|a l IH] s ys s' /=; first by move=> [<- _].
move=> e; sbind e y s1 => e1; sbind e zs s2 => e2; case: e => <- _.
have [sz hq] := IH _ _ _ e2; split=> /=; first by rewrite sz.
by move=> [|i] /= hi; [exact: h e1|exact: hq].
Qed.
Lemma mmap_inv2 (S A C : Type) (f : A -> M S C) (Q : A -> C -> Prop) (x0 : A) (y0 : C) l s ys s' :
  mmap f l s = Ok (ys, s') -> (forall a s y s', f a s = Ok (y, s') -> Q a y) ->
  size ys = size l /\ forall i, (i < size l)%N -> Q (nth x0 l i) (nth y0 ys i).
Proof.
move=> + h; elim: l s ys s' => [|a l IH] s ys s' /=; first by move=> [<- _].
move=> e; sbind e y s1 => e1; sbind e zs s2 => e2; case: e => <- _.
have [sz hq] := IH _ _ _ e2; split=> /=; first by rewrite sz.
by move=> [|i] /= hi; [exact: h e1|exact: hq].
Qed.
Lemma rmap_size (A C : Type) (f : A -> res C) l r : rmap f l = Ok r -> size r = size l.
Proof.
elim: l r => [|a l IH] r /=; first by move=> [<-].
by case: (f a) => //= c; case: rmap IH => //= r' /(_ _ erefl) h [<-] /=; rewrite h.
Qed.

Section Trace.
Variables (F B : fieldType) (G : lmodType F) (E : env B G) (ps : params G).
Variable vk : vkey G.
Notation m := (vk_cs vk).
Notation d := (vk_domain vk).
Notation D := (vk_cs_degree vk).
Notation bf := (blinding_factors m).
Variable instances : seq (seq (seq F)).
Notation np := (size instances).
Notation nlk := (size (lookups m)).
Notation vs0 := (VSet 0 0 0 None : vset G).
Notation vl0 := (VLookup 0 0 0 0 0 0 0 0 : vlookup G).

Definition set_shape (k : nat) (vs : seq (vset G)) : Prop := size vs = k /\
  forall t, (t < k)%N -> (v_last_eval (nth vs0 vs t) : bool) = (t.+1 < k)%N.

Lemma perm_read_evals_inv cs s vs s' : perm_read_evals E cs s = Ok (vs, s') -> set_shape (size cs) vs.
Proof.
elim: cs s vs s' => [|c cs IH] s vs s' /=; first by move=> [<- _].
move=> e; sbind e e1 s1 => _; sbind e e2 s2 => _; sbind e lev s3 => hle; sbind e sets s4 => /IH [sz h]; case: e => <- _.
split=> /=; first by rewrite sz.
move=> [|t] /= ht; last exact: h.
by case: cs hle {IH sz h ht} => [[<-]|c' cs] //= hle; sbind hle l s5 => _; case: hle => <-.
Qed.

Record vparts := VParts {
  q_ic : seq (seq G); q_ac : seq (seq G); q_ie : seq (seq F); q_ae : seq (seq F); q_fe : seq F;
  q_sig : seq F; q_sets : seq (seq (vset G)); q_lks : seq (seq (vlookup G));
  q_l : F * F * F; q_exprs : seq (seq F); q_van : vverified B G;
  q_hc : seq G; q_rc : G; q_re : F; q_qs : seq (seq (vquery B G qkey_eqType)); q_fq : seq (vquery B G qkey_eqType) }.

Record vshape (v : vparts) : Prop := VShape {
  sh_ic : size (q_ic v) = np; sh_ac : size (q_ac v) = np;
  sh_ie : size (q_ie v) = np /\ forall i, (i < np)%N -> size (nth [::] (q_ie v) i) = size (instance_queries m);
  sh_ae : size (q_ae v) = np /\ forall i, (i < np)%N -> size (nth [::] (q_ae v) i) = size (advice_queries m);
  sh_fe : size (q_fe v) = size (fixed_queries m);
  sh_sig : size (q_sig v) = size (vk_permutation vk);
  sh_sets : size (q_sets v) = np /\
    forall i, (i < np)%N -> set_shape (size (chunks (D - 2) (permutation m))) (nth [::] (q_sets v) i);
  sh_lks : size (q_lks v) = np /\ forall i, (i < np)%N -> size (nth [::] (q_lks v) i) = nlk }.

Record vcomputed (vt : vtrace B G) (v : vparts) : Prop := VComputed {
  vc_l : lagrange_evals d bf (vt_x vt) (vt_x vt ^+ p_n ps) = Some (q_l v);
  vc_exprs : sequence
    [seq (let: (advice_evals, instance_evals, permutation, lks) := z in
      obind (fun gs => obind (fun pe => omap (fun le => gs ++ pe ++ flatten le)
        (sequence [seq lookup_expressions p.1 (q_l v).2 (q_l v).1.1 (q_l v).1.2 p.2 (vt_theta vt) (vt_beta vt) (vt_gamma vt)
                         advice_evals (q_fe v) instance_evals
                  | p <- zip lks (lookups m)]))
        (perm_expressions E vk permutation (q_sig v) advice_evals (q_fe v) instance_evals
           (q_l v).2 (q_l v).1.1 (q_l v).1.2 (vt_beta vt) (vt_gamma vt) (vt_x vt)))
      (gate_evals m advice_evals (q_fe v) instance_evals))
    | z <- zip4 (q_ae v) (q_ie v) (q_sets v) (q_lks v)] = Some (q_exprs v);
  vc_van : vanishing_verify E (q_hc v) (q_rc v) (q_re v) (flatten (q_exprs v)) (vt_y vt) (vt_x vt ^+ p_n ps) = Some (q_van v);
  vc_qs : sequence
    (mapi (fun i z =>
       let: (((ic, ie), ac), ae, permutation, lks) := z in
       obind (fun iq => obind (fun aq => omap (fun pq => iq ++ aq ++ pq ++
           flatten (mapi (fun j l => lookup_queries B d i j (vt_x vt) l) lks))
         (perm_queries B d bf i (vt_x vt) permutation))
         (column_queries B d (vt_x vt) 1 i ac ae (advice_queries m)))
         (column_queries B d (vt_x vt) 0 i ic ie (instance_queries m)))
      (zip4 (zip (zip (q_ic v) (q_ie v)) (q_ac v)) (q_ae v) (q_sets v) (q_lks v))) = Some (q_qs v);
  vc_fq : column_queries B d (vt_x vt) 6 0 (vk_fixed_commitments vk) (q_fe v) (fixed_queries m) = Some (q_fq v);
  vc_exprs' : vt_expressions vt = flatten (q_exprs v);
  vc_queries : vt_queries vt = flatten (q_qs v) ++ q_fq v ++ perm_common_queries B vk (q_sig v) (vt_x vt) ++
                               vanishing_queries (vt_x vt) (q_van v) }.

Lemma unwrap_inv (A : Type) (o : option A) (S : Type) (s : S) a s' : mlift (unwrap o) s = Ok (a, s') -> o = Some a /\ s' = s.
Proof. by case: o => //= x [-> ->]. Qed.

Lemma trace_inv s vt s' : verify_proof_trace E ps vk instances s = Ok (vt, s') -> exists v, vshape v /\ vcomputed vt v.
Proof.
rewrite /verify_proof_trace; case: ifP => // _ e.
sbind e ic s1 => h1; sbind e t1 s2 => _; sbind e t2 s3 => _; sbind e ac s4 => h4; sbind e theta s5 => _.
sbind e lp s6 => h6; sbind e beta s7 => _; sbind e gamma s8 => _; sbind e pc s9 => h9; sbind e lc s10 => h10.
sbind e rc s11 => _; sbind e y s12 => _; sbind e hc s13 => _; sbind e x s14 => _.
sbind e ie s15 => h15; sbind e ae s16 => h16; sbind e fe s17 => h17; sbind e re s18 => _; sbind e sgs s19 => h19.
sbind e sets s20 => h20; sbind e lks s21 => h21.
cbv zeta in e.
sbind e ls s22 => /(@unwrap_inv _ _ _ _ _ _) [h22 _]; case: ls h22 e => [[l_last l_blind] l_0] h22 e.
sbind e exprs s23 => /(@unwrap_inv _ _ _ _ _ _) [h23 _]; sbind e van s24 => /(@unwrap_inv _ _ _ _ _ _) [h24 _].
sbind e qs s25 => /(@unwrap_inv _ _ _ _ _ _) [h25 _]; sbind e fq s26 => /(@unwrap_inv _ _ _ _ _ _) [h26 _]; case: e => <- _.
have sic : size ic = np by move: h1; rewrite /mlift; case er: rmap => [r||] //= [<- _]; exact: rmap_size er.
have rn k : forall st r st', read_n_scalars E k st = Ok (r, st') -> size r = k.
  by move=> st r st' er; have [] := mmap_inv (Q := fun _ => True) 0 er (fun _ _ _ _ _ => I); rewrite size_iota.
exists (VParts ic ac ie ae fe sgs sets lks (l_last, l_blind, l_0) exprs van hc rc re qs fq); split; split=> //=.
- by have [-> _] := mmap_inv (Q := fun _ => True) [::] h4 (fun _ _ _ _ _ => I); rewrite size_iota.
- have [] := mmap_inv (Q := fun r => size r = size (instance_queries m)) [::] h15; first by move=> a st r st'; exact: rn st r st'.
  by rewrite size_iota sic => -> h; split.
- have [] := mmap_inv (Q := fun r => size r = size (advice_queries m)) [::] h16; first by move=> a st r st'; exact: rn st r st'.
  by rewrite size_iota sic => -> h; split.
- exact: rn h17.
- by have [] := mmap_inv (Q := fun _ => True) 0 h19 (fun _ _ _ _ _ => I).
- have [] := mmap_inv (Q := fun r => size r = size (chunks (D - 2) (permutation m))) [::] h9.
    move=> a st r st'; rewrite /perm_read_commitments; case: ifP => // _ er.
    by have [] := mmap_inv (Q := fun _ => True) 0 er (fun _ _ _ _ _ => I).
  rewrite size_iota sic => spc hpc.
  have [] := mmap_inv2 (Q := fun cs vs => set_shape (size cs) vs) [::] [::] h20 (fun cs st vs st' => @perm_read_evals_inv cs st vs st').
  by rewrite spc => -> h; split=> // i hi; rewrite -(hpc i hi); exact: h.
have [] := mmap_inv (Q := fun r => size r = nlk) [::] h6.
  by move=> a st r st' er; have [] := mmap_inv (Q := fun _ => True) (0, 0) er (fun _ _ _ _ _ => I).
rewrite size_iota sic => slp hlp.
have [] := mmap_inv2 (Q := fun l r => size r = size l) [::] [::] h10.
  by move=> l st r st' er; have [] := mmap_inv (Q := fun _ => True) (0, 0, 0) er (fun _ _ _ _ _ => I).
rewrite slp => slc hlc.
have [] := mmap_inv2 (Q := fun l r => size r = size l) [::] [::] h21.
  by move=> l st r st' er; have [] := mmap_inv (Q := fun _ => True) vl0 er (fun _ _ _ _ _ => I).
by rewrite slc => -> h; split=> // i hi; rewrite h // hlc // hlp.
Qed.

(* ---------------------------------------------------------------- true opening claims *)
(* op k is the polynomial opened under key k *)
Variables (vt : vtrace B G) (v : vparts) (op : qkey -> {poly F}).
Hypotheses (hsh : vshape v) (hco : vcomputed vt v).
Notation x := (vt_x vt).
Notation omega := (d_omega d).
Hypothesis hrot : forall z r, rotate_omega d z r = z * omega ^ r.
Definition opened (q : vquery B G qkey_eqType) : bool := q_eval q == (op (q_key q)).[q_point q].
Hypothesis hop : all opened (vt_queries vt).
Notation at_ k r := ((op k).[x * omega ^ r]).
Lemma at0 k : at_ k 0 = (op k).[x]. Proof. by rewrite expr0z mulr1. Qed.

Lemma all_mapi (A C : Type) (a0 : A) (p : pred C) (f : nat -> A -> C) s :
  all p (mapi f s) -> forall i, (i < size s)%N -> p (f i (nth a0 s i)).
Proof.
rewrite (mapiE a0) all_map => /(all_nthP 0%N); rewrite size_iota => h i hi.
by have := h i hi; rewrite nth_iota // add0n.
Qed.
Lemma column_opened kind i comms evals qs r : column_queries B d x kind i comms evals qs = Some r ->
  size evals = size qs -> all opened r -> evals = [seq at_ (kind, (i, q.1))%N q.2 | q <- qs].
Proof.
rewrite /column_queries (mapiE (0%N, 0 : int)) => /sequence_map_inv [sr hr] se ho.
apply: (@eq_from_nth _ 0); rewrite ?size_map // => j hj; have hj' : (j < size qs)%N by rewrite -se.
have hjr : (j < size r)%N by rewrite sr size_iota.
have dr : vquery B G qkey_eqType by case: r hjr {sr hr ho}.
have := hr 0%N dr j; rewrite size_iota nth_iota // add0n => /(_ hj'); rewrite (nth_map (0%N, 0)) // (getE 0) //.
case: get => //= c [er]; have := (all_nthP dr ho) j hjr; rewrite -er /opened /= hrot => /eqP //.
Qed.

Lemma perm_opened i vs k pq : set_shape k vs -> perm_queries B d bf i x vs = Some pq -> all opened pq ->
  forall t, (t < k)%N -> [/\ v_eval (nth vs0 vs t) = at_ (2, (i, t))%N 0,
    v_next_eval (nth vs0 vs t) = at_ (2, (i, t))%N rot_next &
    v_last_eval (nth vs0 vs t) = if (t.+1 < k)%N then Some (at_ (2, (i, t))%N (rot_last bf)) else None].
Proof.
move=> [sz hl]; rewrite /perm_queries; case e: sequence => [lasts|] //= [<-]; rewrite all_cat => /andP [h1 h2] t ht.
set isets := zip _ _ in e h1.
have si : size isets = k by rewrite size_zip size_iota sz minnn.
have ni j : (j < k)%N -> nth (0%N, vs0) isets j = (j, nth vs0 vs j).
  by move=> hj; rewrite nth_zip ?size_iota // nth_iota ?sz.
have : opened (Query (2, (i, t))%N (CCommitment B (v_commitment (nth vs0 vs t))) x (v_eval (nth vs0 vs t)))
     && opened (Query (2, (i, t))%N (CCommitment B (v_commitment (nth vs0 vs t))) (rotate_omega d x rot_next) (v_next_eval (nth vs0 vs t))).
  move: h1; rewrite all_flattenE all_map => /(all_nthP (0%N, vs0)) /(_ t); rewrite si => /(_ ht) /=.
  by rewrite ni //= andbT.
rewrite /opened /= hrot => /andP [/eqP e1 /eqP e2]; rewrite at0 e1 e2; split=> //.
have := hl t ht; case: ifP => htk; last by case: v_last_eval.
case ev : v_last_eval => [le|] // _.
have [sl hs] := sequence_map_inv e.
have hj : (k.-1 - t.+1 < size (behead (rev isets)))%N by rewrite size_behead size_rev si; move: htk; nlia.
have hjl : (k.-1 - t.+1 < size lasts)%N by rewrite sl.
have dr : vquery B G qkey_eqType by case: lasts hjl {e h2 sl hs}.
have nb : nth (0%N, vs0) (behead (rev isets)) (k.-1 - t.+1) = (t, nth vs0 vs t).
  rewrite nth_behead nth_rev si; last by move: htk; nlia.
  rewrite (_ : (k - (k.-1 - t.+1).+2)%N = t) ?ni //; move: htk; nlia.
have := hs (0%N, vs0) dr _ hj; rewrite nb /= ev /= => -[eq].
have := (all_nthP dr h2) _ hjl; rewrite -eq /opened /= hrot => /eqP -> //.
Qed.

Lemma parts_opened : [/\ all opened (flatten (q_qs v)), all opened (q_fq v),
  all opened (perm_common_queries B vk (q_sig v) x) & all opened (vanishing_queries x (q_van v))].
Proof. by move: hop; rewrite (vc_queries hco) !all_cat => /and4P. Qed.

Lemma fixed_opened : q_fe v = [seq at_ (6, (0, q.1))%N q.2 | q <- fixed_queries m].
Proof. have [_ h _ _] := parts_opened; exact: column_opened (vc_fq hco) (sh_fe hsh) h. Qed.
Lemma sigma_opened : q_sig v = [seq at_ (7, (0, j))%N 0 | j <- iota 0 (size (vk_permutation vk))].
Proof.
have [_ _ h _] := parts_opened; have sg := sh_sig hsh; apply: (@eq_from_nth _ 0); rewrite ?size_map ?size_iota // => j.
rewrite sg => hj; rewrite (nth_map 0%N) ?size_iota // nth_iota // add0n at0.
have := all_mapi (0, 0) h (i := j); rewrite size_zip sg minnn => /(_ hj).
by rewrite nth_zip // /opened /= => /eqP.
Qed.
Lemma h_opened : expected_h_eval (flatten (q_exprs v)) (vt_y vt) (x ^+ p_n ps) = Some (op (8, (0, 0))%N).[x].
Proof.
have [_ _ _] := parts_opened; have := vc_van hco; rewrite /vanishing_verify; case e: expected_h_eval => [h|] //=.
by case: h_commitment_msm => //= ms [<-]; rewrite /opened /= => /and3P [/eqP -> _ _].
Qed.

Lemma circuit_opened i : (i < np)%N -> [/\
  nth [::] (q_ie v) i = [seq at_ (0, (i, q.1))%N q.2 | q <- instance_queries m],
  nth [::] (q_ae v) i = [seq at_ (1, (i, q.1))%N q.2 | q <- advice_queries m],
  (forall t, (t < size (chunks (D - 2) (permutation m)))%N -> let s := nth vs0 (nth [::] (q_sets v) i) t in
     [/\ v_eval s = at_ (2, (i, t))%N 0, v_next_eval s = at_ (2, (i, t))%N rot_next &
     v_last_eval s = if (t.+1 < size (chunks (D - 2) (permutation m)))%N then Some (at_ (2, (i, t))%N (rot_last bf)) else None]) &
  forall j, (j < nlk)%N -> let l := nth vl0 (nth [::] (q_lks v) i) j in
     [/\ vl_product_eval l = at_ (3, (i, j))%N 0, vl_product_next_eval l = at_ (3, (i, j))%N rot_next,
         vl_pinput_eval l = at_ (4, (i, j))%N 0, vl_pinput_inv_eval l = at_ (4, (i, j))%N rot_prev &
         vl_ptable_eval l = at_ (5, (i, j))%N 0]].
Proof.
move=> hi; have [sic sac [sie hie] [sae hae] _ _ [sst hst] [slk hlk]] := hsh.
have [hq _ _ _] := parts_opened.
set z0 : seq G * seq F * seq G * seq F * seq (vset G) * seq (vlookup G) := ([::], [::], [::], [::], [::], [::]).
have := vc_qs hco; rewrite (mapiE z0) => /sequence_map_inv; rewrite /zip4 !size_zip sic sie sac sae sst slk !minnn size_iota => -[sq].
move=> /(_ 0%N [::] i hi); rewrite nth_iota // add0n !nth_zip ?size_zip ?sic ?sie ?sac ?sae ?sst ?slk ?minnn // /=.
case e1: (column_queries _ _ _ 0 _ _ _ _) => [iq|] //=; case e2: (column_queries _ _ _ 1 _ _ _ _) => [aq|] //=; case e3: perm_queries => [pq|] //= [er].
have : all opened (nth [::] (q_qs v) i) by move: hq; rewrite all_flattenE => /(all_nthP [::]); apply; rewrite sq.
rewrite -er !all_cat => /and4P [h1 h2 h3 h4]; split.
- exact: column_opened e1 (hie i hi) h1.
- exact: column_opened e2 (hae i hi) h2.
- exact: perm_opened (hst i hi) e3 h3.
move=> j hj; cbv zeta.
have := @all_mapi _ _ vl0 (all opened) (fun j l => lookup_queries B d i j x l) (nth [::] (q_lks v) i).
rewrite -all_flattenE => /(_ h4 j); rewrite hlk // => /(_ hj); rewrite /lookup_queries /= /opened /= !hrot.
by move=> /and5P [/eqP -> /eqP -> /eqP -> /eqP -> /andP [/eqP -> _]]; rewrite expr0z mulr1.
Qed.
End Trace.
