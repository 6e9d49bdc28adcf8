(* C57: full-width fixed-base scalar multiplication returns [k] B, where k is what the window cells hold. *)
Set Warnings "-notation-overridden,-ambiguous-paths".
From mathcomp Require Import all_ssreflect all_algebra.
From Verif Require Import FieldTac Util M_Env M_Assigned P_Assigned M_Circuit S_Circuit M_Selectors M_Value M_Region S_Region
  M_Layout S_Layout M_Utilities L_Region L_Gadget M_Ecc S_Curve L_Curve L_Group L_Multiples P_Ecc P_CondSwap
  P_Bits P_RangeCheck M_EccMul L_EccMul S_Digits M_Poly P_Poly P_EccMulSound M_EccFixed.
Import GRing.Theory.
Set Implicit Arguments.
Unset Strict Implicit.
Local Open Scope ring_scope.
Local Arguments at_row : simpl never.
Local Arguments esub : simpl never.
Local Arguments padd : simpl never.
Local Arguments pmul : simpl never.

Section Spec.
Variables (F : fieldType) (b : F) (Fs : fieldType) (pfs : prime_field Fs) (q wb nw : nat) (B : F * F) (base : fixed_point F).
(* the constants of the fixed base B: its interpolation coefficients are computed from B, and its z values make
   z - y a non-square for every y coordinate of the window table (what find_zs_and_us looks for) *)
Record fixed_base_ok : Prop := FixedBaseOk {
  fb_generator : fp_generator base = Some B;
  fb_curve : on_curve b (Some B);
  fb_order : pmul q (Some B) = None;
  fb_lagrange : compute_lagrange_coeffs pfs wb nw (Some B) = Some (fp_lagrange base);
  fb_z : forall tbl w k x y u, compute_window_table pfs wb nw (Some B) = Some tbl -> (w < nw)%N -> (k < 2 ^ wb)%N ->
    nth None (nth [::] tbl w) k = Some (x, y) -> u ^+ 2 != (nth 0%N (fp_z base) w)%:R - y }.
(* windows of at least two bits, and all but the last fit below the group order *)
Definition windows_fit : Prop := [/\ (1 < wb)%N, (1 < nw)%N & (2 * (2 ^ wb) ^ (nw - 1) <= q)%N].
End Spec.

(* ---- sums of windows *)
Section Numbers.
Variable H : nat.
Hypothesis h3 : (3 <= H)%N.
Lemma dval_rcons ds d : dval H (rcons ds d) = (dval H ds + d * H ^ size ds)%N.
Proof. by rewrite -cats1 dval_cat dval_cons dval_nil muln0 addn0 mulnC. Qed.
Definition plus2 (ks : seq nat) : seq nat := [seq (k + 2)%N | k <- ks].
Lemma plus2_bound ks : all (fun k => k < H)%N ks -> (dval H (plus2 ks) * (H - 1) + (H + 1) <= (H + 1) * H ^ size ks)%N.
Proof.
elim: ks => [|k ks IH] /=; first by rewrite dval_nil expn0 muln1.
case/andP=> hk /IH; rewrite dval_cons expnS; move: (dval H (plus2 ks)) (H ^ size ks)%N => d e.
case: H h3 hk => // n hn hk; rewrite subn1 /=; nnia.
Qed.
Lemma plus2_lt ks : all (fun k => k < H)%N ks -> (dval H (plus2 ks) < 2 * H ^ size ks)%N.
Proof.
move=> /plus2_bound; move: (dval H (plus2 ks)) (H ^ size ks)%N => d e h.
rewrite ltnNge; apply/negP => h'; move: h; case: H h3 => // n hn; rewrite subn1 /=; nnia.
Qed.
Lemma plus2E ks : dval H (plus2 ks) = (dval H ks + dval H (nseq (size ks) 2))%N.
Proof. by elim: ks => [|k ks IH] /=; rewrite ?dval_nil // !dval_cons IH mulnDr addnACA. Qed.
End Numbers.
Lemma seq_choice (n : nat) (P : nat -> nat -> Prop) : (forall i, (i < n)%N -> exists k, P i k) ->
  exists ks, size ks = n /\ forall i, (i < n)%N -> P i (nth 0%N ks i).
Proof.
elim: n => [|n IH] h; first by exists [::].
have [i hi|ks [s hk]] := IH; first by apply: h; exact: ltnW.
have [k hk'] := h n (ltnSn n); exists (rcons ks k); rewrite size_rcons s; split=> // i.
rewrite ltnS nth_rcons s leq_eqVlt => /orP[/eqP ->|hi]; first by rewrite ltnn eqxx.
by rewrite hi; exact: hk.
Qed.
Lemma all_some_map_inv (A C : Type) (f : A -> option C) s r : all_some [seq f x | x <- s] = Some r ->
  size r = size s /\ forall d d' i, (i < size s)%N -> f (nth d s i) = Some (nth d' r i).
Proof.
rewrite /all_some; elim: s r => [|x s IH] r /=; first by case=> <-.
case e: (f x) => [y|//] /=; case e': (sequence _) => [l|//] /= [<-]; have [h1 h2] := IH _ e'.
by split=> [|d d' [|i]]; [rewrite /= h1| |exact: h2].
Qed.

(* where the toggle is on, the word is a window and the coordinates check holds *)
Definition row_gate (F : fieldType) (b : F) (wb : nat) (T : table F) (fx : fixed_config) (word : expr F) (toggle : nat) : Prop :=
  forall row, t_selector T toggle row -> (exists2 k, (k < 2 ^ wb)%N & at_row T row word = k%:R) /\
    forall g, List.In g (coords_check b wb fx word) -> at_row T row g = 0.
Section Sound.
Variables (F : fieldType) (b : F) (pf : prime_field F) (p : nat) (Fs : fieldType) (pfs : prime_field Fs) (q wb nw : nat).
Hypothesis hc : good_curve b.
Hypothesis pok : prime_field_ok pf p.
Hypothesis qok : prime_field_ok pfs q.
Variables (B : F * F) (base : fixed_point F).
Hypothesis fb : fixed_base_ok b pfs q wb nw B base.
Hypothesis wf : windows_fit q wb nw.
Hypothesis hp : (2 ^ wb <= p)%N.
Notation H := (2 ^ wb)%N.
Notation hB := (fb_curve fb).
Lemma H3 : (3 <= H)%N.
Proof. by have [h _ _] := wf; apply: (@leq_trans (2 ^ 2)%N) => //; rewrite leq_exp2l. Qed.

(* ---- multiples of B *)
Lemma pmul_mod n : pmul (n %% q) (Some B) = pmul n (Some B).
Proof. by rewrite [in RHS](divn_eq n q) (pmulD hc) ?hB // (pmulM hc) ?hB // (fb_order fb) pmul_none. Qed.
Lemma times_nat n : times pfs (Some B) n%:R = pmul n (Some B).
Proof. by rewrite /times (pf_natr qok) pmul_mod. Qed.
Lemma mult_neq_x a d A D : (0 < a < d)%N -> (a + d < q)%N -> pmul a (Some B) = Some A -> pmul d (Some B) = Some D -> D.1 != A.1.
Proof.
move=> /andP[a0 ad] adq ea ed; have nB : Some B <> None by [].
have ord n : (0 < n < q)%N -> pmul n (Some B) <> None by exact (@order_neq _ _ hc q n _ hB nB (pf_prime qok) (fb_order fb)).
have hA : on_curve b (Some A) by rewrite -ea; apply: (pmul_on hc); exact: hB.
have hD : on_curve b (Some D) by rewrite -ed; apply: (pmul_on hc); exact: hB.
case: A D ea ed hA hD => x1 y1 [x2 y2] ea ed hA hD; apply: (neq_x hc hD hA).
  apply/eqP => e; apply: (ord (d - a)%N); first by rewrite subn_gt0 ad; apply: leq_ltn_trans (leq_subr _ _) _; apply: leq_ltn_trans adq; rewrite leq_addl.
  apply: (@padd_inj _ _ hc (Some (x1, y1))) => //; first by apply: (pmul_on hc); exact: hB.
  by rewrite -{1}ea -(pmulD hc) ?hB // subnKC ?(ltnW ad) // ed e padd0.
apply/eqP => e; apply: (ord (a + d)%N); first by rewrite addn_gt0 a0.
by rewrite (pmulD hc) ?hB // ea ed e padd_opp // poppK.
Qed.

(* ---- the window table *)
Definition wscalar (w k : nat) : Fs :=
  if (w < nw - 1)%N then (k + 2)%N%:R * H%:R ^+ w else k%:R * H%:R ^+ (nw - 1) - offset_acc Fs wb nw.
Lemma offset_accE : offset_acc Fs wb nw = (dval H (nseq (nw - 1) 2%N))%:R.
Proof.
rewrite /offset_acc; elim: (nw - 1)%N => [|n IH]; first by rewrite /= dval_nil.
rewrite -[n.+1]addn1 iotaD foldl_cat IH.
have -> : nseq (n + 1) 2%N = rcons (nseq n 2%N) 2%N by rewrite nseqD cats1.
by rewrite dval_rcons size_nseq natrD /= add0n addn1 -natrX expnS expnM.
Qed.

Lemma table_at tbl w k : compute_window_table pfs wb nw (Some B) = Some tbl -> (w < nw)%N -> (k < H)%N ->
  nth None (nth [::] tbl w) k = times pfs (Some B) (wscalar w k).
Proof.
rewrite /compute_window_table; case: eqP => // _ [<-] hw hk.
rewrite nth_rcons size_map size_iota /wscalar; case: ltnP => hw'.
  by rewrite (nth_map 0%N) ?size_iota // (nth_map 0%N) ?size_iota // !nth_iota // !add0n.
have -> : w == (nw - 1)%N by rewrite eqn_leq hw' andbT; move: hw; nlia.
by rewrite (nth_map 0%N) ?size_iota // nth_iota // add0n.
Qed.
Lemma size_table tbl w : compute_window_table pfs wb nw (Some B) = Some tbl -> (w < nw)%N ->
  size tbl = nw /\ size (nth [::] tbl w) = H.
Proof.
rewrite /compute_window_table; case: eqP => // _ [<-] hw; rewrite size_rcons size_map size_iota.
split; first by move: hw; nlia.
rewrite nth_rcons size_map size_iota; case: ltnP => hw'; first by rewrite (nth_map 0%N) ?size_iota // size_map size_iota.
by case: eqP => [_|]; [rewrite size_map size_iota|move: hw hw'; nlia].
Qed.
Lemma points_uniq : uniq ([seq i%:R | i <- iota 0 H] : seq F).
Proof.
rewrite map_inj_in_uniq ?iota_uniq // => i j; rewrite !mem_iota !add0n => hi hj e.
have := congr1 (pf_val pf) e; rewrite !(pf_natr pok) !modn_small //; exact: leq_trans hp.
Qed.
Lemma lagrange_at w : (w < nw)%N -> size (nth [::] (fp_lagrange base) w) = H /\ forall k, (k < H)%N ->
  exists P, times pfs (Some B) (wscalar w k) = Some P /\ (Poly (nth [::] (fp_lagrange base) w)).[k%:R] = P.1.
Proof.
move=> hw; have := fb_lagrange fb; rewrite /compute_lagrange_coeffs.
case et: (compute_window_table pfs wb nw (Some B)) => [tbl|//] /= hl.
have [st sw] := size_table et hw; have [sl hl'] := all_some_map_inv hl.
have := hl' [::] [::] w; rewrite st => /(_ hw).
case es: (all_some _) => [xs|//] /= hL; have [sx hx] := all_some_map_inv es.
have szp : size ([seq i%:R | i <- iota 0 H] : seq F) = size xs by rewrite size_map size_iota sx sw.
have [c ec [sc [hev _]]] := C07_lagrange_interpolate points_uniq szp.
move: hL; rewrite ec => -[<-]; rewrite sc size_map size_iota; split=> // k hk.
have hx' := hx None 0 k; rewrite sw in hx'; have := hx' hk; rewrite (table_at et hw hk).
case e: (times _ _ _) => [P|//] /= [eP]; exists P; split=> //.
have := hev k; rewrite size_map size_iota => /(_ hk); rewrite (nth_map 0%N) ?size_iota // nth_iota // add0n => ->.
by rewrite eP.
Qed.
Lemma times_on s : on_curve b (times pfs (Some B) s).
Proof. by apply: (pmul_on hc); exact: hB. Qed.

(* ---- one row *)
Section Row.
Variables (T : table F) (row : int) (fx : fixed_config) (word : expr F) (toggle : nat).
Hypothesis hgate : row_gate b wb T fx word toggle.
Hypothesis hsize : size (fx_lagrange fx) = H.
Lemma at_pow (w : expr F) n : at_row T row (foldl (fun acc _ => EProduct acc w) (EConstant 1) (iota 0 n)) = at_row T row w ^+ n.
Proof.
have key e l : at_row T row (foldl (fun acc (_ : nat) => EProduct acc w) e l) = at_row T row e * at_row T row w ^+ size l.
  by elim: l e => [|x l IH] e /=; rewrite ?mulr1 // IH at_mul exprS mulrA.
by rewrite key at_const mul1r size_iota.
Qed.
Lemma at_interp (l : seq (expr F * nat)) e :
  at_row T row (foldl (fun acc t => ESum acc (EProduct t.1 (EFixed F 0 t.2 0))) e l) =
  at_row T row e + \sum_(t <- l) at_row T row t.1 * t_cell T Fixed t.2 row.
Proof.
elim: l e => [|t l IH] e; first by rewrite big_nil addr0.
by rewrite [foldl _ _ _]/= IH big_cons !rowE !addr0 addrA.
Qed.
Lemma row_sound w : (w < nw)%N -> t_selector T toggle row ->
  (forall k, (k < H)%N -> t_cell T Fixed (nth 0%N (fx_lagrange fx) k) row = nth 0 (nth [::] (fp_lagrange base) w) k) ->
  t_cell T Fixed (fx_z fx) row = (nth 0%N (fp_z base) w)%:R ->
  exists k, [/\ (k < H)%N, at_row T row word = k%:R &
    times pfs (Some B) (wscalar w k) = Some (t_cell T Advice (ad_xp (fx_add fx)) row, t_cell T Advice (ad_yp (fx_add fx)) row)].
Proof.
move=> hw hs hl hz.
have [[k hk ek] gate] := hgate hs; exists k; split=> //.
have gx := gate _ (or_introl erefl); have gy := gate _ (or_intror (or_introl erefl)).
have gc := gate _ (or_intror (or_intror (or_introl erefl))).
have [sL /(_ k hk)[P [eP hP]]] := lagrange_at hw.
move: gx gy gc; rewrite /esquare !rowE !addr0 at_interp at_const add0r.
set xp := t_cell T Advice (ad_xp _) row; set yp := t_cell T Advice (ad_yp _) row; rewrite -/fx hz.
set u := t_cell T Advice (fx_u fx) row; set z := _%:R.
have -> : \sum_(t <- zip [seq foldl (fun acc _ => EProduct acc word) (EConstant 1) (iota 0 pow) | pow <- iota 0 (win wb)]
     (fx_lagrange fx)) at_row T row t.1 * t_cell T Fixed t.2 row = P.1.
  rewrite -hP (@horner_coef_wide _ H); last by apply: leq_trans (size_Poly _) _; rewrite sL.
  rewrite (big_nth (EConstant 0, 0%N)) size_zip size_map size_iota hsize /win minnn big_mkord; apply: eq_bigr => i _.
  rewrite nth_zip /= ?size_map ?size_iota ?hsize // (nth_map 0%N) ?size_iota // nth_iota // add0n at_pow ek.
  by rewrite hl // coef_Poly mulrC.
move=> /eqP; rewrite subr_eq0 => /eqP ex gy gc.
have := times_on (wscalar w k); rewrite eP; case: P eP ex {hP} => x y eP /= ex /eqP hy; rewrite ex in hy eP *.
have : (yp - y) * (yp + y) = 0.
  rewrite -subr_sqr hy; apply/eqP; rewrite subr_eq0; apply/eqP.
  by apply/eqP; rewrite -subr_eq0 -[X in _ == X]gc !expr2 !exprS expr0 !mulr1 opprD !addrA mulrA.
move/eqP; rewrite mulf_eq0 => /orP[|h]; first by rewrite subr_eq0 => /eqP ->.
exfalso; move: h; rewrite addr_eq0 => /eqP hyp.
case et: (compute_window_table pfs wb nw (Some B)) => [tbl|]; last by have := fb_lagrange fb; rewrite /compute_lagrange_coeffs et.
have := fb_z fb (x := xp) (y := y) u et hw hk; rewrite (table_at et hw hk) => /(_ eP) /eqP; apply.
by apply/eqP; rewrite -subr_eq0 -[X in _ == X]gy hyp -/z opprB opprK addrA addrAC expr2.
Qed.
End Row.

(* ---- multiples named by lists of windows *)
Variable ks : seq nat.
Hypotheses (sk : size ks = nw) (hk : forall i, (i < nw)%N -> (nth 0%N ks i < H)%N).
Local Notation part w := (dval H (plus2 (take w ks))).
Lemma part_lt w : (w <= nw)%N -> (part w < 2 * H ^ w)%N.
Proof.
move=> hw; have := @plus2_lt _ H3 (take w ks); rewrite size_take sk.
have -> : (if (w < nw)%N then w else nw) = w by case: ltnP => // h; apply/eqP; rewrite eqn_leq h.
apply; apply/(all_nthP 0%N) => i hi; move: (hi); rewrite size_take sk => hi'.
have iw : (i < w)%N by move: hi'; case: (ltnP w nw) => // h hh; exact: leq_trans hh h.
by rewrite nth_take //; apply: hk; exact: leq_trans iw hw.
Qed.
Lemma partS w : (w < nw)%N -> part w.+1 = (part w + (nth 0%N ks w + 2) * H ^ w)%N.
Proof. by move=> hw; rewrite (take_nth 0%N) ?sk // /plus2 map_rcons dval_rcons size_map size_takel // sk ltnW. Qed.
Lemma part_gt0 w : (w < nw)%N -> (0 < part w.+1)%N.
Proof. by move=> hw; rewrite partS // addn_gt0 muln_gt0 addn2 /= expn_gt0 (leq_trans _ H3) // orbT. Qed.
Lemma part_lt_q w : (w < nw)%N -> (part w < q)%N.
Proof.
move=> hw; have [_ n1 hq] := wf; apply: leq_trans (part_lt (ltnW hw)) _; apply: leq_trans hq.
rewrite leq_mul2l /= leq_pexp2l ?(leq_trans _ H3) //; move: hw; nlia.
Qed.
Lemma lower_point w : (w < nw - 1)%N -> times pfs (Some B) (wscalar w (nth 0%N ks w)) = pmul ((nth 0%N ks w + 2) * H ^ w) (Some B).
Proof. by move=> hw; rewrite /wscalar hw -natrX -natrM times_nat. Qed.
Lemma msb_point : padd (times pfs (Some B) (wscalar (nw - 1) (nth 0%N ks (nw - 1)))) (pmul (part (nw - 1)) (Some B)) =
  pmul (dval H ks) (Some B).
Proof.
have [_ n1 _] := wf; rewrite /wscalar ltnn {1}/times -(pmulD hc) ?hB // plus2E size_takel; last by rewrite sk leq_subr.
rewrite addnCA (pmulD hc) ?hB // -[pmul (pf_val _ _ + _) _]times_nat natrD (pf_valK qok) -offset_accE subrK -natrX -natrM times_nat.
rewrite -(pmulD hc) ?hB //; congr (pmul _ _).
have n0 : (nw - 1 < size ks)%N by rewrite sk; move: n1; nlia.
have e : take (nw - 1).+1 ks = ks by rewrite take_oversize // sk; move: n1; nlia.
by rewrite -[in RHS]e (take_nth 0%N) // dval_rcons size_takel // ltnW.
Qed.
Lemma mult_some a : (0 < a < q)%N -> exists P, pmul a (Some B) = Some P.
Proof.
move=> ha; have nB : Some B <> None by [].
by have := @order_neq _ _ hc q a _ hB nB (pf_prime qok) (fb_order fb) ha; case: (pmul a _) => // P _; exists P.
Qed.
End Sound.

(* ---------------------------------------------------------------- the region *)
Section Region.
Variables (F : fieldType) (b : F) (pf : prime_field F) (p : nat) (Fs : fieldType) (pfs : prime_field Fs) (q wb nw : nat).
Hypothesis hc : good_curve b.
Hypothesis pok : prime_field_ok pf p.
Hypothesis qok : prime_field_ok pfs q.
Variables (B : F * F) (base : fixed_point F).
Hypothesis fb : fixed_base_ok b pfs q wb nw B base.
Hypothesis wf : windows_fit q wb nw.
Hypothesis hp : (2 ^ wb <= p)%N.
Variables (T : table F) (place : nat -> int) (inst : nat -> nat -> value F) (r : nat) (fx : fixed_config) (word : expr F) (toggle : nat).
Hypothesis hg1 : row_gate b wb T fx word toggle.
Hypothesis hg2 : gates_hold T (inc_gates F (fx_inc fx)).
Hypothesis hsize : size (fx_lagrange fx) = (2 ^ wb)%N.
Notation rsound := (rsound T place inst r).
Local Arguments rbindp : simpl never.

Definition fixed_row (w : nat) : Prop := [/\ t_selector T toggle (place r + w%:Z),
  forall k, (k < 2 ^ wb)%N -> t_cell T Fixed (nth 0%N (fx_lagrange fx) k) (place r + w%:Z) = nth 0 (nth [::] (fp_lagrange base) w) k &
  t_cell T Fixed (fx_z fx) (place r + w%:Z) = (nth 0%N (fp_z base) w)%:R].
Lemma constants_sound (Q : unit -> Prop) : ((forall w, (w < nw)%N -> fixed_row w) -> Q tt) ->
  rsound (assign_fixed_constants wb nw fx r 0 base toggle) Q.
Proof.
move=> h; rewrite /assign_fixed_constants; case: ifP => _; first exact: rsound_panic.
apply: rsound_bind; apply: (rsound_map (P := fun w (_ : acell F) => fixed_row w)) => [w hw|s ss hs]; last first.
  apply: rsound_ret; apply: h => w hw; have [a0 _] : exists a : acell F, True by exists (ACell unknown (Cell 0 0 (Advice, 0%N))).
  by have := hs w 0%N a0; rewrite size_iota nth_iota //; exact.
apply: rsound_bind; apply: rsound_enable; rewrite addn0 => h1; apply: rsound_bind.
apply: (rsound_map (P := fun k (_ : acell F) =>
   t_cell T Fixed (nth 0%N (fx_lagrange fx) k) (place r + w%:Z) = nth 0 (nth [::] (fp_lagrange base) w) k)) => [k hk|s ss hs].
  by apply: rsound_fixed; rewrite ?addn0 => /(_ _ erefl).
apply: rsound_fixed => h3; split=> //; last exact: h3 erefl.
move=> k hk; have [a0 _] : exists a : acell F, True by exists (ACell unknown (Cell 0 0 (Advice, 0%N))).
by have := hs k 0%N a0; rewrite size_iota nth_iota //; exact.
Qed.
Definition row_point (w : nat) : F * F :=
  (t_cell T Advice (ad_xp (fx_add fx)) (place r + w%:Z), t_cell T Advice (ad_yp (fx_add fx)) (place r + w%:Z)).
Lemma window_sound w k scalar (Q : ecpoint F -> Prop) :
  (forall u, point_in T place u (Some (row_point w)) -> Q u) ->
  rsound (process_window pfs nw fx r 0 w k scalar base) Q.
Proof.
move=> h; rewrite /process_window; case: ifP => _; first exact: rsound_panic.
case: unwrap_coords => [m|]; last exact: rsound_panic.
apply: rsound_bind; apply: rsound_e; apply: rsound_bind; apply: rsound_e; apply: rsound_bind; apply: rsound_advice.
by apply: rsound_ret; apply: h; apply/point_in_pair; rewrite !add0n.
Qed.

Lemma inner_sound fields (Q : ecpoint F * ecpoint F -> Prop) :
  (forall ks acc m, size ks = nw -> (exists2 fs, fields = Some fs & size fs = nw) -> (forall i, (i < nw)%N -> (nth 0%N ks i < 2 ^ wb)%N) ->
     (forall i, (i < nw)%N -> at_row T (place r + i%:Z) word = (nth 0%N ks i)%:R) ->
     point_in T place acc (pmul (dval (2 ^ wb) (plus2 (take (nw - 1) ks))) (Some B)) ->
     point_in T place m (times pfs (Some B) (wscalar Fs wb nw (nw - 1) (nth 0%N ks (nw - 1)))) -> Q (acc, m)) ->
  rsound (assign_region_inner pfs wb nw fx r 0 fields base toggle) Q.
Proof.
move=> h; apply: rsound_bind; apply: constants_sound => hrow.
case ew: fields => [[|k0 kt]|]; [exact: rsound_panic| |exact: rsound_panic].
have [w hw|ks [sk hks]] := @seq_choice nw (fun w k => [/\ (k < 2 ^ wb)%N, at_row T (place r + w%:Z) word = k%:R &
    times pfs (Some B) (wscalar Fs wb nw w k) = Some (row_point w)]).
  by have [h1 h2 h3] := hrow w hw; exact: (row_sound hc pok fb hp hg1 hsize hw h1 h2 h3).
have hlt i : (i < nw)%N -> (nth 0%N ks i < 2 ^ wb)%N by move=> hi; have [] := hks i hi.
have hpt w : (w < nw - 1)%N -> pmul ((nth 0%N ks w + 2) * (2 ^ wb) ^ w) (Some B) = Some (row_point w).
  move=> hw; have hw' : (w < nw)%N by apply: leq_trans hw _; exact: leq_subr.
  by have [_ _ <-] := hks w hw'; rewrite (lower_point hc qok fb ks hw).
have [_ n1 hq] := wf.
apply: rsound_bind; apply: window_sound => acc0 hacc0.
case: eqP => // sks.
apply: rsound_bind.
apply: rsound_weaken (@rsound_fold _ _ _ _ _ _ _ 1 (nw - 2) acc0
  (fun w acc => point_in T place acc (pmul (dval (2 ^ wb) (plus2 (take w ks))) (Some B))) _ _); last first.
- move=> w acc /andP[w1 w2] hacc; have hw : (w < nw - 1)%N by move: w1 w2 n1; nlia.
  have hw' : (w < nw)%N by apply: leq_trans hw _; exact: leq_subr.
  apply: rsound_bind; apply: window_sound => m hm u e hr.
  have a0 : (0 < dval (2 ^ wb) (plus2 (take w ks)))%N.
    case: w w1 {w2 hacc hw hm e hr} hw' => // w _ hw'; exact: (part_gt0 wf sk (ltnW hw')).
  have aq := part_lt_q wf hp sk hlt hw'.
  have [A eA] : exists P, pmul (dval (2 ^ wb) (plus2 (take w ks))) (Some B) = Some P.
    by apply: (mult_some hc qok fb); rewrite a0.
  have ad : (dval (2 ^ wb) (plus2 (take w ks)) < (nth 0%N ks w + 2) * (2 ^ wb) ^ w)%N.
    apply: leq_trans (part_lt wf sk hlt (ltnW hw')) _; by rewrite leq_mul2r leq_addl orbT.
  have adq : (dval (2 ^ wb) (plus2 (take w ks)) + (nth 0%N ks w + 2) * (2 ^ wb) ^ w < q)%N.
    rewrite -(partS wb sk hw'); apply: (part_lt_q wf hp sk hlt); move: hw n1; nlia.
  have ne := mult_neq_x hc qok fb (introT andP (conj a0 ad)) adq eA (hpt w hw).
  rewrite eA in hacc; case: A (row_point w) (hpt w hw) hm ne eA hacc => x2 y2 [x1 y1] ep hm ne eA hacc.
  have := C45_add_incomplete_sound e hr hg2 hm hacc ne; rewrite -ep -eA -(pmulD hc) ?(fb_curve fb) // addnC.
  by rewrite -(partS wb sk hw').
- rewrite (take_nth 0%N) ?sk ?(ltnW n1) // take0 /= dval_cons dval_nil muln0 addn0.
  have h0 : (0 < nw - 1)%N by move: n1; nlia.
  by have := hpt 0%N h0; rewrite expn0 muln1 => ->.
- have -> : (1 + (nw - 2) = nw - 1)%N by move: n1; nlia.
  move=> acc hacc; apply: rsound_bind; apply: window_sound => m hm; apply: rsound_ret.
  have hl : (nw - 1 < nw)%N by move: n1; nlia.
  apply: (h ks) => //; first by exists (k0 :: kt).
    by move=> i hi; have [] := hks i hi.
  by have [_ _ ->] := hks _ hl.
Qed.
End Region.

Section Witness.
Variables (F : fieldType) (Fs : fieldType) (pfs : prime_field Fs) (wb nw : nat).
Variables (T : table F) (place : nat -> int) (inst : nat -> nat -> value F) (r : nat) (c : full_config).
Let fx := fu_super c.
Notation rsound := (rsound T place inst r).
Local Arguments rbindp : simpl never.
Lemma witness_sound scalar (Q : seq (acell F) -> Prop) :
  (forall s, [seq ac_cell a | a <- s] = [seq Cell r i (Advice, fx_window fx) | i <- iota 0 (size s)] -> Q s) ->
  rsound (witness_windows F pfs wb nw c r 0 scalar) Q.
Proof.
move=> h; apply: rsound_bind; apply: rsound_enable_rows => _.
case: (map_transpose _ _ _) => [ws|]; last exact: rsound_panic.
apply: (rsound_map (P := fun t a => ac_cell a = Cell r t.1 (Advice, fx_window fx))) => [t _|s ss hs].
  by apply: rsound_advice; rewrite add0n.
have ss' : size s = size ws by rewrite ss size_zip size_iota minnn.
apply: h; apply: (@eq_from_nth _ (Cell r 0 (Advice, 0%N))) => [|i]; rewrite !size_map ?size_iota // => hi.
have [a0 _] : exists a : acell F, True by exists (nth (ACell unknown (Cell 0 0 (Advice, 0%N))) s 0).
rewrite (nth_map a0) // (nth_map 0%N) ?size_iota // nth_iota // add0n (hs i (0%N, unknown)) ?nth_zip ?size_iota //=.
  by rewrite nth_iota -?ss'.
by rewrite -ss.
Qed.
Lemma full_row_gate b : gates_hold T (full_gates b wb c) ->
  row_gate b wb T fx (EAdvice F 0 (fx_window fx) 0) (q_mul_fixed_full c).
Proof.
move=> hg row hs.
have gate g : List.In g (rcons (coords_check b wb fx (EAdvice F 0 (fx_window fx) 0)) (range_check (EAdvice F 0 (fx_window fx) 0) (2 ^ wb))) ->
    at_row T row g = 0.
  move=> hi; have := gate_at row hg (in_map (EProduct (ESelector F (q_mul_fixed_full c) true)) hi).
  by rewrite at_mul at_sel hs mul1r.
have H0 : (0 < 2 ^ wb)%N by rewrite expn_gt0.
have /(C43_range_check _ _ _ H0)[k hk ek] := gate _ (or_intror (or_intror (or_intror (or_introl erefl)))).
split; first by exists k.
by move=> g [<-|[<-|[<-|[]]]]; apply: gate; [left|right; left|right; right; left].
Qed.
End Witness.

(* C57 *)
Definition mul_fixed_is_mul (F : fieldType) (b : F) (pf : prime_field F) (Fs : fieldType) (pfs : prime_field Fs) (q wb nw : nat)
    (c : full_config) (B : F * F) (base : fixed_point F) : Prop :=
  forall (inst : nat -> nat -> value F) (T : table F) (place : nat -> int) (r r' : nat) (scalar : value Fs) res windows,
  lreturns inst r (mul_fixed_full pf pfs q wb nw c scalar base) = Ok ((res, windows), r') ->
  lrespects T place inst r (mul_fixed_full pf pfs q wb nw c scalar base) ->
  gates_hold T (full_gates b wb c ++ inc_gates F (fx_inc (fu_super c)) ++ add_gates F (fx_add (fu_super c))) ->
  exists ks : seq nat, [/\ size ks = nw, all (fun k => k < 2 ^ wb)%N ks,
    [seq cell_value T place (ac_cell a) | a <- windows] = [seq k%:R | k <- ks] &
    point_in T place res (pmul (dval (2 ^ wb) ks) (Some B))].
Theorem C57_mul_fixed_sound (F : fieldType) (b : F) (pf : prime_field F) (p : nat) (Fs : fieldType) (pfs : prime_field Fs)
    (q wb nw : nat) (c : full_config) (B : F * F) (base : fixed_point F) :
  good_curve b -> prime_field_ok pf p -> prime_field_ok pfs q -> fixed_base_ok b pfs q wb nw B base -> windows_fit q wb nw ->
  (2 ^ wb <= p)%N -> size (fx_lagrange (fu_super c)) = (2 ^ wb)%N ->
  mul_fixed_is_mul b pf pfs q wb nw c B base.
Proof.
move=> hc pok qok fb wf hp hs inst T place r r' scalar res windows hret hres hg.
have [g1 /gates_cat[g2 g3]] := gates_cat hg.
have : lsound T place inst (mul_fixed_full pf pfs q wb nw c scalar base) (fun t => exists ks : seq nat,
   [/\ size ks = nw, all (fun k => k < 2 ^ wb)%N ks,
    [seq cell_value T place (ac_cell a) | a <- t.2] = [seq k%:R | k <- ks] &
    point_in T place t.1 (pmul (dval (2 ^ wb) ks) (Some B))]); last by move=> /(_ _ _ _ hret hres).
apply: lsound_bind; apply: lsound_region => r1; apply: rsound_bind; apply: witness_sound => ws hws.
apply: rsound_bind; apply: (inner_sound hc pok qok fb wf hp (full_row_gate g1) g2 hs) => ks acc m sk [fs ef sf] hk hwk hacc hm.
have sw : size ws = nw by have [<- _] := all_some_map_inv ef.
apply: rsound_ret; apply: lsound_bind; apply: lsound_region => r2.
apply: (rsound_add hc _ _ g3 hm hacc) => [||u hu]; try by apply: (pmul_on hc); exact: (fb_curve fb).
apply: lsound_ret; exists ks; split=> //.
- by apply/(all_nthP 0%N) => i; rewrite sk => hi; apply: hk.
- have -> : [seq cell_value T place (ac_cell a) | a <- ws] = [seq cell_value T place x | x <- [seq ac_cell a | a <- ws]] by rewrite -map_comp.
  rewrite hws -map_comp sw; apply: (@eq_from_nth _ 0) => [|i]; rewrite !size_map size_iota ?sk // => hi.
  by rewrite (nth_map 0%N) ?size_iota // nth_iota // (nth_map 0%N) ?sk // add0n; have := hwk i hi; rewrite at_adv addr0.
- by rewrite -(msb_point hc qok fb wf hp sk).
Qed.
Print Assumptions C57_mul_fixed_sound.
