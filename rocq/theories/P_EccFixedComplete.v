(* C58: for an honest prover, full-width fixed-base multiplication returns [scalar] B and meets every constraint. *)
Set Warnings "-notation-overridden,-ambiguous-paths".
From mathcomp Require Import all_ssreflect all_algebra.
From Verif Require Import FieldTac Util M_Env M_Assigned P_Assigned M_Circuit S_Circuit M_Selectors M_Value M_Region S_Region
  M_Layout S_Layout M_Utilities L_Region L_Gadget M_Ecc S_Curve L_Curve L_Group L_Multiples P_Ecc P_CondSwap
  P_Bits P_RangeCheck M_EccMul P_EccMul L_EccMul S_Digits M_Poly P_Poly P_EccMulSound S_Sinsemilla L_Sinsemilla P_SinsemillaComplete
  L_EccMulComplete M_EccFixed P_EccFixed.
Import GRing.Theory.
Set Implicit Arguments.
Unset Strict Implicit.
Local Open Scope ring_scope.
Local Arguments at_row : simpl never.
Local Arguments esub : simpl never.
Local Arguments padd : simpl never.
Local Arguments pmul : simpl never.
Local Arguments rbindp : simpl never.
Local Arguments assign_advice : simpl never.

Section Spec.
Variables (F : fieldType) (b : F) (Fs : fieldType) (pfs : prime_field Fs) (wb nw : nat) (B : F * F) (base : fixed_point F) (c : full_config).
(* what only the prover needs: as many constants as windows, and u with u^2 = y + z for every y of the window table *)
Record fixed_base_us : Prop := FixedBaseUs {
  fu_z_size : size (fp_z base) = nw;
  fu_u_size : size (fp_u base) = nw;
  fu_u : forall tbl w k x y, compute_window_table pfs wb nw (Some B) = Some tbl -> (w < nw)%N -> (k < 2 ^ wb)%N ->
    nth None (nth [::] tbl w) k = Some (x, y) -> (nth 0 (nth [::] (fp_u base) w) k) ^+ 2 = y + (nth 0%N (fp_z base) w)%:R }.
Definition fixed_sels : seq nat := [:: q_mul_fixed_full c; q_add_incomplete (fx_inc (fu_super c)); q_add (fx_add (fu_super c))].
Definition fixed_gates : seq (expr F) :=
  full_gates b wb c ++ inc_gates F (fx_inc (fu_super c)) ++ add_gates F (fx_add (fu_super c)).
End Spec.

Lemma In_iota i n m : List.In i (iota n m) -> (n <= i < n + m)%N.
Proof.
elim: m n => [|m IH] n //= [<-|/IH /andP[h1 h2]]; first by rewrite leqnn -{1}[n]addn0 ltn_add2l.
by rewrite (ltnW h1) -addSnnS.
Qed.
Lemma honest_usize (Fs : fieldType) (pfs : prime_field Fs) q wb d : prime_field_ok pfs q -> (wb <= pf_repr_bits pfs)%N ->
  (d < 2 ^ wb)%N -> (d < q)%N -> word_of_bits (take wb (to_le_bits pfs d%:R)) = d.
Proof.
move=> qok hw hd hq; rewrite word_of_bitsE /to_le_bits -map_take take_iota (minn_idPl hw) -map_comp (pf_natr qok) modn_small //.
by have := bits_dval d 0 wb; rewrite expn0 divn1 modn_small // => <-.
Qed.

Lemma digits (Fs : fieldType) (pfs : prime_field Fs) (q wb nw : nat) (s : Fs) : prime_field_ok pfs q -> windows_fit q wb nw ->
  pf_num_bits pfs = (wb * nw)%N -> (wb <= 8)%N -> exists2 ds, decompose_word pfs s (pf_num_bits pfs) wb = Some ds &
  [/\ size ds = nw, (forall i, (i < nw)%N -> (nth 0%N ds i < 2 ^ wb)%N) & dval (2 ^ wb) ds = pf_val pfs s].
Proof.
move=> qok wf nb w8; have [w1 n1 _] := wf; have hw : (0 < wb <= 8)%N by rewrite w8 (ltn_trans _ w1).
have [ds e [h1 h2 h3]] := C48_decompose_word s hw (pf_repr qok); exists ds => //.
have e1 : size ds = nw.
  move: h1; rewrite nb modnMr subn0 modnn addn0 => /eqP; rewrite eqn_pmul2l // ?(ltn_trans _ w1) //.
  by move/eqP.
split=> //; first by move=> i hi; apply: (all_nthP 0%N h2); rewrite e1.
by rewrite h3 modn_small //; apply: leq_trans (pf_lt qok s) _; have /andP[_ h] := pf_bits qok; exact: ltnW.
Qed.

Section Rule.
Variables (F : fieldType) (b : F) (T : table F) (place : nat -> int) (inst : nat -> nat -> value F) (r : nat).
Variable ok : nat -> int -> Prop.
Lemma rcomp_inc (H : Prop) c p q o P Q : good_curve b -> on_curve b (Some P) -> on_curve b (Some Q) -> P.1 != Q.1 ->
  (forall row, all (fun g => at_row T row g == 0) (inc_gates F c) -> ok (q_add_incomplete c) row) ->
  point_is p (Some P) -> point_is q (Some Q) -> (H -> point_in T place p (Some P)) -> (H -> point_in T place q (Some Q)) ->
  rcomp T place inst r ok H (inc_region c r p q o) (fun u => point_is u (padd (Some P) (Some Q))) (fun u => point_in T place u (padd (Some P) (Some Q))).
Proof.
case: P Q => x1 y1 [x2 y2] hc hP hQ ne hok p1 q1 p2 q2.
have [u [e1 e2 e3]] := @C45_add_incomplete_complete F b inst T place c r p q o x1 y1 x2 y2 hc hP hQ ne p1 q1.
exists u => //; split=> // h [hh hs]; have [h1 h2 h3] := e3 hs hh (p2 h) (q2 h); split=> // s off.
case: p1 q1 {p2 q2} => [[v1 ev1 d1] [w1 ew1 f1]] [[v2 ev2 d2] [w2 ew2 f2]] {e1 e2 e3 hh hs h1 h2}.
rewrite /inc_region ev1 ew1 ev2 ew2 !vE /v_error_if_known_and /= !denE d1 d2 f1 f2 /=.
rewrite (negbTE (x_neq0 hc hP)) (negbTE (x_neq0 hc hQ)) (negbTE ne) /=.
by rewrite /enabled_in /= !orbF => /andP[/eqP <- /eqP <-]; apply: hok.
Qed.
End Rule.

Section Complete.
Variables (F : fieldType) (b : F) (pf : prime_field F) (p : nat) (Fs : fieldType) (pfs : prime_field Fs) (q wb nw : nat).
Hypothesis hc : good_curve b.
Hypothesis pok : prime_field_ok pf p.
Hypothesis qok : prime_field_ok pfs q.
Variables (B : F * F) (base : fixed_point F).
Hypothesis fb : fixed_base_ok b pfs q wb nw B base.
Hypothesis us : fixed_base_us pfs wb nw B base.
Hypothesis wf : windows_fit q wb nw.
Hypothesis hp : (2 ^ wb <= p)%N.
Hypothesis nb : (wb <= pf_repr_bits pfs)%N.
Variables (inst : nat -> nat -> value F) (T : table F) (place : nat -> int) (fx : fixed_config) (word : expr F) (toggle : nat).
Hypothesis hsize : size (fx_lagrange fx) = (2 ^ wb)%N.
Variable ok : nat -> int -> Prop.
Notation holds row ps := (all (fun g => at_row T row g == 0) ps).
Definition fullpolys : seq (expr F) :=
  rcons (coords_check b wb fx word) (range_check word (win wb)).
Hypothesis okf : forall row, holds row fullpolys -> ok toggle row.
Hypothesis oki : forall row, holds row (inc_gates F (fx_inc fx)) -> ok (q_add_incomplete (fx_inc fx)) row.
Hypothesis oka : forall row, holds row (add_gates F (fx_add fx)) -> ok (q_add (fx_add fx)) row.
Notation H := (2 ^ wb)%N.

Lemma Hq : (H <= q)%N.
Proof.
have [_ n1 hq] := wf; apply: leq_trans hq; apply: (@leq_trans (H ^ (nw - 1))).
  by rewrite -{1}[H]expn1 leq_pexp2l ?expn_gt0 // subn_gt0.
by rewrite leq_pmull.
Qed.
Section Windows.
Variable ds : seq nat.
Hypotheses (sk : size ds = nw) (hk : forall i, (i < nw)%N -> (nth 0%N ds i < H)%N).
Definition pt (w : nat) : F * F := odflt (0, 0) (times pfs (Some B) (wscalar Fs wb nw w (nth 0%N ds w))).
Lemma ptE w : (w < nw)%N -> times pfs (Some B) (wscalar Fs wb nw w (nth 0%N ds w)) = Some (pt w).
Proof. by move=> hw; have [_ /(_ _ (hk hw))[P [e _]]] := lagrange_at pok fb hp hw; rewrite /pt e. Qed.
Lemma pt_on w : (w < nw)%N -> on_curve b (Some (pt w)).
Proof. by move=> hw; rewrite -(ptE hw); exact: (times_on hc fb). Qed.

Variable r : nat.
Notation at_ k col w := (t_cell T k col (place r + (w)%N%:Z)).
Definition frow (w : nat) : Prop :=
  (forall k, (k < H)%N -> at_ Fixed (nth 0%N (fx_lagrange fx) k) w = nth 0 (nth [::] (fp_lagrange base) w) k) /\
  at_ Fixed (fx_z fx) w = (nth 0%N (fp_z base) w)%:R.
Definition filled (w : nat) : Prop :=
  [/\ at_ Advice (ad_xp (fx_add fx)) w = (pt w).1, at_ Advice (ad_yp (fx_add fx)) w = (pt w).2 &
      at_ Advice (fx_u fx) w = nth 0 (nth [::] (fp_u base) w) (nth 0%N ds w)].
Lemma row_complete w : (w < nw)%N -> frow w -> filled w -> at_row T (place r + w%:Z) word = (nth 0%N ds w)%:R ->
  holds (place r + w%:Z) fullpolys.
Proof.
move=> hw [hl hz] [hx hy hu] hwin; have hd := hk hw.
have [sL /(_ _ hd)[P [eP hP]]] := lagrange_at pok fb hp hw.
have eP' : P = pt w by move: eP; rewrite ptE // => -[].
have H0 : (0 < H)%N by rewrite expn_gt0.
rewrite /fullpolys all_rcons; apply/andP; split.
  by apply/eqP/(C43_range_check _ _ _ H0); exists (nth 0%N ds w).
rewrite /coords_check /= /esquare !rowE !addr0 at_interp at_const add0r hx hy hu hz.
have -> : \sum_(t <- zip [seq foldl (fun acc _ => EProduct acc word) (EConstant 1) (iota 0 pow) | pow <- iota 0 (win wb)]
     (fx_lagrange fx)) at_row T (place r + w%:Z) t.1 * t_cell T Fixed t.2 (place r + w%:Z) = (pt w).1.
  rewrite -eP' -hP (@horner_coef_wide _ H); last by apply: leq_trans (size_Poly _) _; rewrite sL.
  rewrite (big_nth (EConstant 0, 0%N)) size_zip size_map size_iota hsize /win minnn big_mkord; apply: eq_bigr => i _.
  rewrite nth_zip /= ?size_map ?size_iota ?hsize // (nth_map 0%N) ?size_iota // nth_iota // add0n at_pow hwin.
  by rewrite hl // coef_Poly mulrC.
rewrite subrr eqxx /=.
case et: (compute_window_table pfs wb nw (Some B)) => [tbl|]; last by have := fb_lagrange fb; rewrite /compute_lagrange_coeffs et.
have := fu_u us (x := (pt w).1) (y := (pt w).2) et hw hd; rewrite (table_at hp et hw hd) -surjective_pairing => /(_ (ptE hw)).
rewrite expr2 => ->; have := pt_on hw; rewrite [on_curve _ _]/=; case: (pt w) => x y /= /eqP e.
by rewrite -expr2 e; apply/and3P; split=> //; rewrite addrAC addrK ?exprSr ?expr1 ?subrr // expr0 mul1r subrr.
Qed.

Notation sels := [seq (toggle, w) | w <- iota 0 nw].
Lemma constants_hon (P : Prop) : rhon T place inst r P (assign_fixed_constants wb nw fx r 0 base toggle) sels
  (fun=> True) (fun=> forall w, (w < nw)%N -> frow w).
Proof.
have d0 : acell F := ACell unknown (Cell 0 0 (Advice, 0%N)).
have sl : size (fp_lagrange base) = nw.
  have [_ n1 _] := wf; have := fb_lagrange fb; rewrite /compute_lagrange_coeffs.
  case et: (compute_window_table pfs wb nw (Some B)) => [tbl|//] /= hl.
  by have [-> _] := all_some_map_inv hl; have [] := size_table hp et (ltnW n1).
rewrite /assign_fixed_constants sl (fu_z_size us) eqxx [_ || _]/= -[sels]cats0.
apply: (@rhon_bind _ T place inst r _ _ _ _ _ sels [::] (fun=> True) (fun=> forall w, (w < nw)%N -> frow w)); last first.
  by move=> _ _; apply: rhon_ret => // -[].
apply: (@rhon_map _ T place inst r _ _ _ _ _ _ (fun _ _ => True) (fun w _ => frow w)) => [w /In_iota/andP[_ hw]|//|l _ _ _ hs w hw]; last first.
  by have := hs w 0%N d0; rewrite size_iota nth_iota //; exact.
apply: (@rhon_weaken _ T place inst r _ _ _ ([:: (toggle, (w + 0)%N)] ++ ([::] ++ [::])) _ (fun=> True) (fun=> frow w)) => //.
  by move=> x; rewrite inE addn0 => /eqP ->; apply: map_f; rewrite mem_iota.
apply: (@rhon_bind _ T place inst r _ _ _ _ _ _ _ (fun=> True) (fun=> True)); first exact: rhon_enable.
move=> _ _; apply: (@rhon_bind _ T place inst r _ _ _ _ _ _ _ (fun=> True)
   (fun=> forall k, (k < H)%N -> at_ Fixed (nth 0%N (fx_lagrange fx) k) w = nth 0 (nth [::] (fp_lagrange base) w) k)).
  apply: (@rhon_map _ T place inst r _ _ _ _ _ _ (fun _ _ => True)
     (fun k _ => at_ Fixed (nth 0%N (fx_lagrange fx) k) w = nth 0 (nth [::] (fp_lagrange base) w) k)) => [k _|//|l _ _ _ hs k hk'].
    by apply: rhon_fixed => // _; rewrite addn0.
  by have := hs k 0%N d0; rewrite size_iota nth_iota //; exact.
by move=> _ _; apply: rhon_fixed => // -[_ h1]; rewrite addn0 => h2; split.
Qed.

Lemma window_comp (P : Prop) w sc : (w < nw)%N -> sc = wscalar Fs wb nw w (nth 0%N ds w) ->
  rcomp T place inst r ok P (process_window pfs nw fx r 0 w (known (nth 0%N ds w)) (known sc) base)
    (fun u => point_is u (Some (pt w))) (fun u => point_in T place u (Some (pt w)) /\ filled w).
Proof.
move=> hw ->; rewrite /process_window (fu_u_size us) eqxx [~~ _]/=.
have -> : unwrap_coords pfs base (known (wscalar Fs wb nw w (nth 0%N ds w))) = Some (known (pt w)).
  rewrite /unwrap_coords [inner _]/= (fb_generator fb) ptE //; have := pt_on hw; case: (pt w) => x y hon.
  by rewrite (negbTE (x_neq0 hc hon)) (negbTE (y_neq0 hc hon)).
apply: rcomp_rhon; rewrite !vE.
apply: (@rhon_bind _ T place inst r _ _ _ _ _ [::] [::] (eq (ECell (known (ATrivial (pt w).1)) (Cell r (0 + w) (Advice, ad_xp (fx_add fx)))))
   (fun=> at_ Advice (ad_xp (fx_add fx)) w = (pt w).1)); first by apply: rhon_e.
move=> _ <-; apply: (@rhon_bind _ T place inst r _ _ _ _ _ [::] [::] (eq (ECell (known (ATrivial (pt w).2)) (Cell r (0 + w) (Advice, ad_yp (fx_add fx)))))
   (fun=> at_ Advice (ad_yp (fx_add fx)) w = (pt w).2)); first by apply: rhon_e.
move=> _ <-; apply: (@rhon_bind _ T place inst r _ _ _ _ _ [::] [::] (fun=> True)
   (fun=> at_ Advice (fx_u fx) w = nth 0 (nth [::] (fp_u base) w) (nth 0%N ds w))); first by apply: rhon_advice.
move=> _ _; apply: rhon_ret => [|[[[_ h1] h2] h3]].
  by case: (pt w) => x y; split; [exists (ATrivial x)|exists (ATrivial y)].
split=> //; move: h1 h2; case: (pt w) => x y h1 h2; apply/point_in_pair; exact: (conj h1 h2).
Qed.

Definition windows_in : Prop := forall i, (i < nw)%N -> at_row T (place r + i%:Z) word = (nth 0%N ds i)%:R.
Local Notation part w := (dval H (plus2 (take w ds))).
Lemma usize_known i : (i < nw)%N -> window_usize pfs wb (known (nth 0%N ds i)%:R) = known (nth 0%N ds i).
Proof.
by move=> hi; rewrite /window_usize vE (honest_usize qok) //; [exact: hk|apply: leq_trans Hq; exact: hk].
Qed.
Lemma lower_pt w : (w < nw - 1)%N -> pmul ((nth 0%N ds w + 2) * H ^ w) (Some B) = Some (pt w).
Proof.
move=> hw; have hw' : (w < nw)%N by apply: leq_trans hw _; exact: leq_subr.
by rewrite -(ptE hw') (lower_point hc qok fb ds hw).
Qed.
Lemma inner_comp (P : Prop) : (P -> windows_in) ->
  rcomp T place inst r ok P (assign_region_inner pfs wb nw fx r 0 (Some [seq known k%:R | k <- ds]) base toggle)
    (fun t => point_is t.1 (pmul (part (nw - 1)) (Some B)) /\ point_is t.2 (Some (pt (nw - 1))))
    (fun t => [/\ point_in T place t.1 (pmul (part (nw - 1)) (Some B)), point_in T place t.2 (Some (pt (nw - 1))) &
                 forall w, (w < nw)%N -> holds (place r + w%:Z) fullpolys]).
Proof.
move=> hin; have [_ n1 hq] := wf.
have n0 : (0 < nw)%N by apply: ltnW.
have n2 : (0 < nw - 1)%N by rewrite subn_gt0.
have nl : (nw - 1 < nw)%N by rewrite subn1 prednK.
apply: (rcomp_defer (constants_hon P) (V := fun t => point_is t.1 (pmul (part (nw - 1)) (Some B)) /\ point_is t.2 (Some (pt (nw - 1))))
   (Q := fun t => [/\ point_in T place t.1 (pmul (part (nw - 1)) (Some B)), point_in T place t.2 (Some (pt (nw - 1))) &
                 forall w, (w < nw)%N -> filled w])); last first.
  move=> _ t hP _ hrow _ [h1 h2 h3].
  have hh w : (w < nw)%N -> holds (place r + w%:Z) fullpolys.
    by move=> hw; apply: row_complete => //; [exact: hrow|exact: h3|exact: hin].
  split; last by split.
  by move=> s' off /mapP[w]; rewrite mem_iota add0n => /andP[_ hw] [-> ->]; apply: okf; exact: hh.
move=> _ _; set ks := [seq known k%:R | k <- ds]; have sks : size ks = nw by rewrite size_map.
have eks w : (w < nw)%N -> nth unknown ks w = known (nth 0%N ds w)%:R by move=> hw; rewrite (nth_map 0%N) ?sk.
case ek: ks => [|k0 kt]; first by move: sks n0; rewrite ek => <-.
have e0 : k0 = known (nth 0%N ds 0)%:R by rewrite -eks // ek.
rewrite -ek {1 2}e0 /process_lower_bits usize_known // sks eqxx [~~ _]/=.
have wsE w : (w < nw - 1)%N -> ((nth 0%N ds w)%:R + 2%:R) * (win wb)%:R ^+ w = wscalar Fs wb nw w (nth 0%N ds w).
  by move=> hw; rewrite /wscalar hw natrD.
rewrite vE; apply: (rcomp_bind (window_comp _ n0 (wsE _ n2))) => acc0 hacc0.
set P1 := _ /\ _.
have e1 : Some (pt 0) = pmul (part 1) (Some B).
  rewrite -(lower_pt n2) (take_nth 0%N) ?sk // take0 /= dval_cons dval_nil muln0 addn0 expn0 muln1 //.
have := @rcomp_fold _ T place inst r ok P1 _ (fun acc w =>
        let k := nth unknown ks w in
        let+ mul_b := process_window pfs nw fx r 0 w (window_usize pfs wb k) (v_map (fun k => (k + 2%:R) * (win wb)%:R ^+ w) k) base in
        inc_region (fx_inc fx) r mul_b acc (0 + w)) 1 (nw - 2) acc0
   (fun w acc => point_is acc (pmul (part w) (Some B)))
   (fun w acc => point_in T place acc (pmul (part w) (Some B)) /\ forall i, (i < w)%N -> filled i).
rewrite -e1 => /(_ hacc0) hf.
have {}hf := hf ltac:(by case=> _ [h1 h2]; split=> // -[|]).
have e2 : (1 + (nw - 2) = nw - 1)%N by move: n1; clear; nlia.
rewrite e2 in hf; apply: (rcomp_bind (hf _)) => [w acc /andP[w1 hw] hacc|acc hacc] {hf}.
  have hw' : (w < nw)%N by apply: leq_trans hw _; exact: leq_subr.
  cbv zeta beta; rewrite eks // usize_known // vE.
  apply: (rcomp_bind (window_comp _ hw' (wsE _ hw))) => m hm.
  have a0 : (0 < part w)%N by case: w w1 hw' {hw hacc hm} => // w _ hw'; exact: (part_gt0 wf sk (ltnW hw')).
  have aq := part_lt_q wf hp sk hk hw'.
  have [A eA] : exists P, pmul (part w) (Some B) = Some P by apply: (mult_some hc qok fb); rewrite a0.
  have ad : (part w < (nth 0%N ds w + 2) * H ^ w)%N.
    apply: leq_trans (part_lt wf sk hk (ltnW hw')) _; by rewrite leq_mul2r leq_addl orbT.
  have adq : (part w + (nth 0%N ds w + 2) * H ^ w < q)%N.
    rewrite -(partS wb sk hw'); apply: (part_lt_q wf hp sk hk); move: hw n1; clear; nlia.
  have ne := mult_neq_x hc qok fb (introT andP (conj a0 ad)) adq eA (lower_pt hw).
  have es : pmul (part w.+1) (Some B) = padd (Some (pt w)) (Some A).
    by rewrite (partS wb sk hw') addnC (pmulD hc) ?(fb_curve fb) // eA lower_pt.
  have hA : on_curve b (Some A) by rewrite -eA; apply: (pmul_on hc); exact: (fb_curve fb).
  rewrite es; rewrite eA in hacc *.
  apply: (rcomp_keep (rcomp_inc inst r (0 + w) hc (pt_on hw') hA ne oki hm hacc _ _)) => [[_ []]//|[[_ []]]//|u [[_ [_ h1]] [_ h2]] _ hu].
  by split=> // i; rewrite ltnS leq_eqVlt => /orP[/eqP->|/h1].
rewrite /process_msb sks eks // usize_known // vE.
have wE : (nth 0%N ds (nw - 1))%:R * (win wb)%:R ^+ (nw - 1) - offset_acc Fs wb nw = wscalar Fs wb nw (nw - 1) (nth 0%N ds (nw - 1)).
  by rewrite /wscalar ltnn.
apply: (rcomp_bind (window_comp _ nl wE)) => m hm.
apply: rcomp_ret => // -[[_ [h1 h2]] [h3 h4]]; split=> // w; rewrite -{1}(prednK n0) ltnS leq_eqVlt -subn1 => /orP[/eqP->|/h2] //.
Qed.
End Windows.

End Complete.

Section Full.
Variables (F : fieldType) (b : F) (pf : prime_field F) (p : nat) (Fs : fieldType) (pfs : prime_field Fs) (q wb nw : nat).
Hypothesis hc : good_curve b.
Hypothesis pok : prime_field_ok pf p.
Hypothesis qok : prime_field_ok pfs q.
Variables (B : F * F) (base : fixed_point F).
Hypothesis fb : fixed_base_ok b pfs q wb nw B base.
Hypothesis us : fixed_base_us pfs wb nw B base.
Hypothesis wf : windows_fit q wb nw.
Hypothesis hp : (2 ^ wb <= p)%N.
Hypothesis nb : (wb <= pf_repr_bits pfs)%N.
Variables (inst : nat -> nat -> value F) (T : table F) (place : nat -> int) (c : full_config).
Hypothesis hsize : size (fx_lagrange (fu_super c)) = (2 ^ wb)%N.
Let fx := fu_super c.
Let word : expr F := EAdvice F 0 (fx_window fx) 0.
Variable ok : nat -> int -> Prop.
Notation holds row ps := (all (fun g => at_row T row g == 0) ps).
Hypothesis okf : forall row, holds row (fullpolys b wb fx word) -> ok (q_mul_fixed_full c) row.
Hypothesis oki : forall row, holds row (inc_gates F (fx_inc fx)) -> ok (q_add_incomplete (fx_inc fx)) row.
Hypothesis oka : forall row, holds row (add_gates F (fx_add fx)) -> ok (q_add (fx_add fx)) row.
Notation H := (2 ^ wb)%N.
Variable s : Fs.
Section Windows.
Variable ds : seq nat.
Hypotheses (sk : size ds = nw) (hk : forall i, (i < nw)%N -> (nth 0%N ds i < H)%N).
Variable r : nat.
Notation at_ k col w := (t_cell T k col (place r + (w)%N%:Z)).
Notation sels := [seq (q_mul_fixed_full c, w) | w <- iota 0 nw].
Hypothesis eds : decompose_word pfs s (pf_num_bits pfs) wb = Some ds.
Definition windows_are (windows : seq (acell F)) : Prop :=
  size windows = nw /\ forall i a0, (i < nw)%N -> ac_value (nth a0 windows i) = known (nth 0%N ds i)%:R.
Lemma witness_hon (P : Prop) : rhon T place inst r P (witness_windows F pfs wb nw c r 0 (known s)) sels
  (fun l => windows_are l /\ [seq ac_cell a | a <- l] = [seq Cell r i (Advice, fx_window fx) | i <- iota 0 nw]) (fun=> windows_in nw T place word ds r).
Proof.
have d0 : acell F := ACell unknown (Cell 0 0 (Advice, 0%N)).
rewrite /witness_windows -[sels]cats0.
apply: (@rhon_bind _ T place inst r _ _ _ _ _ sels [::] (fun=> True) (fun=> True)).
  have -> : sels = [seq (q_mul_fixed_full c, (0 + i)%N) | i <- iota 0 nw] by [].
  exact: rhon_enable_rows.
move=> _ _; rewrite /map_transpose /= eds /= /v_transpose_vec /= size_map sk eqxx /= !size_map sk.
set vs := [seq known x | x <- [seq k%:R | k <- ds]]; have sv : size vs = nw by rewrite !size_map.
have sz : size (zip (iota 0 nw) vs) = nw by rewrite size_zip size_iota sv minnn.
have ez j : (j < nw)%N -> nth (0%N, unknown) (zip (iota 0 nw) vs) j = (j, known (nth 0%N ds j)%:R).
  by move=> hj; rewrite nth_zip ?size_iota // nth_iota // add0n (nth_map 0) ?size_map ?sk // (nth_map 0%N) ?sk.
apply: (@rhon_map _ T place inst r _ _ _ _ _ _
  (fun t a => a = ACell t.2 (Cell r t.1 (Advice, fx_window fx))) (fun t a => forall x, t.2 = known x -> at_ Advice (fx_window fx) t.1 = x)).
- move=> t ht; have [j [hj ej]] : exists j, (j < nw)%N /\ t = (j, known (nth 0%N ds j)%:R).
    have [j [hj ej]] := List.In_nth _ _ (0%N, unknown) ht; have hj' : (j < nw)%N by rewrite -sz; apply/ltP.
    by exists j; split=> //; rewrite -ez // -ej; elim: (zip _ _) (j) => [|y l IH] [|j'] //=.
  by rewrite ej; apply: rhon_advice => // _ e x [<-].
- move=> l; rewrite sz => sl hl; have el j a0 : (j < nw)%N -> nth a0 l j = ACell (known (nth 0%N ds j)%:R) (Cell r j (Advice, fx_window fx)).
    by move=> hj; have := hl j (0%N, unknown) a0 hj; rewrite ez.
  split; first by split=> // i a0 hi; rewrite el.
  apply: (@eq_from_nth _ (ac_cell d0)) => [|i]; rewrite !size_map ?size_iota ?sl // => hi.
  by rewrite (nth_map d0) ?sl // el // (nth_map 0%N) ?size_iota // nth_iota.
- move=> l _; rewrite sz => sl _ hl i hi; have := hl i (0%N, unknown) d0 hi; rewrite ez // at_adv addr0; exact.
Qed.

Lemma fields_known windows : windows_are windows -> windows_field pf Fs q windows = Some [seq known k%:R | k <- ds].
Proof.
move=> [sw hw]; have d0 : acell F := ACell unknown (Cell 0 0 (Advice, 0%N)).
rewrite /windows_field; set g := fun a => _.
have -> : [seq g a | a <- windows] = [seq Some x | x <- [seq known k%:R | k <- ds]].
  apply: (@eq_from_nth _ None) => [|i]; rewrite !size_map ?sw ?sk // => hi.
  rewrite (nth_map d0) ?sw // (nth_map unknown) ?size_map ?sk // (nth_map 0%N) ?sk // /g hw //=.
  have hd := hk hi; rewrite (pf_natr pok) modn_small ?(leq_trans hd) //; exact: (Hq wf).
by elim: [seq known k%:R | k <- ds] => //= x l ->.
Qed.
End Windows.

Lemma mul_fixed_comp ds : size ds = nw -> (forall i, (i < nw)%N -> (nth 0%N ds i < H)%N) ->
  decompose_word pfs s (pf_num_bits pfs) wb = Some ds ->
  lcomp T place inst ok True (mul_fixed_full pf pfs q wb nw c (known s) base)
    (fun t => point_is t.1 (pmul (dval H ds) (Some B)) /\ [seq ac_value a | a <- t.2] = [seq known k%:R | k <- ds])
    (fun t => point_in T place t.1 (pmul (dval H ds) (Some B))).
Proof.
move=> sk hk eds; have [_ n1 _] := wf; have nl : (nw - 1 < nw)%N by rewrite subn1 prednK // ltnW.
have em : padd (Some (pt pfs wb nw B ds (nw - 1))) (pmul (dval H (plus2 (take (nw - 1) ds))) (Some B)) = pmul (dval H ds) (Some B).
  by rewrite -(msb_point hc qok fb wf hp sk) (ptE pok fb hp hk).
have hon : on_curve b (pmul (dval H (plus2 (take (nw - 1) ds))) (Some B)) by apply: (pmul_on hc); exact: (fb_curve fb).
apply: (@lcomp_bind _ T place inst ok _ _ _ _ _
  (fun t => [/\ windows_are ds t.1, point_is t.2.1 (pmul (dval H (plus2 (take (nw - 1) ds))) (Some B)) & point_is t.2.2 (Some (pt pfs wb nw B ds (nw - 1)))])
  (fun t => point_in T place t.2.1 (pmul (dval H (plus2 (take (nw - 1) ds))) (Some B)) /\ point_in T place t.2.2 (Some (pt pfs wb nw B ds (nw - 1))))).
  apply: lcomp_region => r.
  apply: (rcomp_defer (witness_hon sk r eds True) (Q := fun t =>
    [/\ point_in T place t.2.1 (pmul (dval H (plus2 (take (nw - 1) ds))) (Some B)), point_in T place t.2.2 (Some (pt pfs wb nw B ds (nw - 1))) &
       forall w, (w < nw)%N -> holds (place r + w%:Z) (fullpolys b wb fx word)])); last first.
    move=> _ t _ _ _ _ [h1 h2 h3]; split=> // s' off /mapP[w]; rewrite mem_iota add0n => /andP[_ hw] [-> ->]; apply: okf; exact: h3.
  move=> l [hl _]; rewrite (fields_known sk hk hl); apply: (rcomp_bind (inner_comp hc pok qok fb us wf hp nb inst hsize okf oki sk hk _)) => [[]//|u [h1 h2]].
  by apply: rcomp_ret => [|[_ [? ? ?]]]; split.
case=> l [acc m] [h1 h2 h3]; rewrite /= in h1 h2 h3.
apply: (lcomp_bind (lcomp_region (fun r => rcomp_add inst r 0 hc (pt_on hc pok fb hp hk nl) hon oka h3 h2 (fun h => proj2 (proj2 h)) (fun h => proj1 (proj2 h))))) => u.
rewrite em => hu; apply: lcomp_ret => [|[_ h]] //; split=> //.
have d0 : acell F := ACell unknown (Cell 0 0 (Advice, 0%N)).
case: h1 => sl hl; apply: (@eq_from_nth _ unknown) => [|i]; rewrite !size_map ?sl ?sk // => hi.
by rewrite (nth_map d0) ?sl // hl // (nth_map 0%N) ?sk.
Qed.
End Full.

(* ---------------------------------------------------------------- rows *)
Section Rows.
Variables (F : fieldType) (b : F) (wb : nat) (c : full_config) (T : table F) (place : nat -> int).
Hypothesis un : uniq (fixed_sels c).
Notation holds row ps := (all (fun g => at_row T row g == 0) ps).
Let block (i : nat) : seq (expr F) :=
  nth [::] [:: full_gates b wb c; inc_gates F (fx_inc (fu_super c)); add_gates F (fx_add (fu_super c))] i.
Definition okx (s : nat) (row : int) : Prop := forall i, (i < 3)%N -> s = nth 0%N (fixed_sels c) i -> holds row (block i).
Lemma okx_block i row : (i < 3)%N -> holds row (block i) -> okx (nth 0%N (fixed_sels c) i) row.
Proof. by move=> hi h j hj /eqP; rewrite nth_uniq // => /eqP <-. Qed.
Lemma okx_full row : holds row (fullpolys b wb (fu_super c) (EAdvice F 0 (fx_window (fu_super c)) 0)) -> okx (q_mul_fixed_full c) row.
Proof.
move=> h; apply: (@okx_block 0) => //.
have -> : block 0 = [seq EProduct (ESelector F (q_mul_fixed_full c) true) g | g <- fullpolys b wb (fu_super c) (EAdvice F 0 (fx_window (fu_super c)) 0)] by [].
rewrite all_map; apply: sub_all h => g /= /eqP e.
by rewrite at_mul e mulr0.
Qed.
Lemma block_off i row : (i < 3)%N -> ~~ t_selector T (nth 0%N (fixed_sels c) i) row -> holds row (block i).
Proof.
move=> hi /negbTE h; have key ps : block i = [seq EProduct (ESelector F (nth 0%N (fixed_sels c) i) true) g | g <- ps] -> holds row (block i).
  by move=> ->; apply: gated_off.
by case: i hi h key => [|[|[|]]] // _ _; apply.
Qed.
Lemma fixed_rows regions : lon_ok place okx regions ->
  on_here T place (fixed_gates b wb c) (fixed_sels c) regions -> forall row, holds row (fixed_gates b wb c).
Proof.
move=> hk ho row.
have split3 : holds row (fixed_gates b wb c) <-> forall i, (i < 3)%N -> holds row (block i).
  rewrite /fixed_gates !all_cat; split=> [/and3P[h1 h2 h3] [|[|[|]]] //|h].
  by apply/and3P; split; [exact: (h 0%N)|exact: (h 1%N)|exact: (h 2%N)].
apply/split3 => i hi; case e: (t_selector T (nth 0%N (fixed_sels c) i) row); last by apply: block_off => //; rewrite e.
have hm : nth 0%N (fixed_sels c) i \in fixed_sels c by apply: mem_nth.
have [h1|/split3] := ho _ row hm e; last exact.
move: h1 hk; rewrite /turned_on /lon_ok; elim: (regions) => [|e' l IH] /=; first by move=> /List.Exists_nil.
by move=> /List.Exists_cons[[off ee ->]|h1] /List.Forall_cons_iff[h2 h3]; [exact: h2 ee _ hi erefl|exact: IH].
Qed.
End Rows.

(* C58: for every known scalar s the program returns [s] B and the windows of s, and in a table that holds what the program
   assigned, with the selectors on only where it turned them on (or where these gates hold anyway), every copy constraint
   and in every row every gate of the three chips holds. *)
Theorem C58_mul_fixed_complete (F : fieldType) (b : F) (pf : prime_field F) (p : nat) (Fs : fieldType) (pfs : prime_field Fs)
    (q wb nw : nat) (c : full_config) (B : F * F) (base : fixed_point F)
    (inst : nat -> nat -> value F) (T : table F) (place : nat -> int) (s : Fs) r :
  good_curve b -> prime_field_ok pf p -> prime_field_ok pfs q -> fixed_base_ok b pfs q wb nw B base -> fixed_base_us pfs wb nw B base ->
  windows_fit q wb nw -> (2 ^ wb <= p)%N -> (wb <= 8)%N -> pf_num_bits pfs = (wb * nw)%N ->
  size (fx_lagrange (fu_super c)) = (2 ^ wb)%N -> uniq (fixed_sels c) ->
  let prog := mul_fixed_full pf pfs q wb nw c (known s) base in
  exists res windows r', [/\ lreturns inst r prog = Ok ((res, windows), r'),
    point_is res (pmul (pf_val pfs s) (Some B)),
    (exists ks, [/\ size ks = nw, all (fun k => k < 2 ^ wb)%N ks, dval (2 ^ wb) ks = pf_val pfs s &
       [seq ac_value a | a <- windows] = [seq known k%:R | k <- ks]]) &
    lhonest T place inst r prog -> lselectors_on T place inst r prog ->
    on_here T place (fixed_gates b wb c) (fixed_sels c) (lregions inst r prog) ->
    [/\ lrespects T place inst r prog, forall row, all (fun g => at_row T row g == 0) (fixed_gates b wb c) &
        point_in T place res (pmul (pf_val pfs s) (Some B))]].
Proof.
move=> hc pok qok fb us wf hp w8 nb hs un prog.
have [ds eds [sk hk ek]] := digits s qok wf nb w8.
have nr : (wb <= pf_repr_bits pfs)%N by have [_ n1 _] := wf; apply: leq_trans (pf_repr qok); rewrite nb leq_pmulr // (ltn_trans _ n1).
have [[res ws] [r' [e [[v1 v2] h]]]] := mul_fixed_comp hc pok qok fb us wf hp nr inst place hs (@okx_full F b wb c T un)
  (fun row => @okx_block F b wb c T un 1 row isT) (fun row => @okx_block F b wb c T un 2 row isT) sk hk eds r.
exists res, ws, r'; rewrite -ek; split=> //; first by exists ds; split=> //; apply/(all_nthP 0%N) => i; rewrite sk; exact: hk.
move=> g1 g2 g3; have [q1 q2 q3] := h Logic.I (conj g1 g2); split=> //.
exact: (fixed_rows q2 g3).
Qed.
Print Assumptions C58_mul_fixed_complete.
