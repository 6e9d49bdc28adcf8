(* C50: variable-base scalar multiplication.  The returned point is claimed to be [alpha] base.

   Refuted: the rows of incomplete double-and-add hold their own copy of the base point, and no
   constraint ties that copy to [base]. *)
Set Warnings "-notation-overridden,-ambiguous-paths".
From mathcomp Require Import all_ssreflect all_algebra.
From Verif Require Import FieldTac Util M_Env M_Assigned P_Assigned M_Circuit S_Circuit M_Selectors M_Value M_Region S_Region
  M_Layout S_Layout M_Utilities L_Region L_Gadget M_Ecc S_Curve L_Curve P_Ecc Ex_Field Ex_Env Ex_Layout P_Bits P_RangeCheck M_EccMul.
Import GRing.Theory.
Set Implicit Arguments.
Unset Strict Implicit.
Local Open Scope ring_scope.
Local Arguments at_row : simpl never.

Section Spec.
Variables (F : fieldType) (b : F) (pf : prime_field F) (m : mul_params) (c : mul_config).
(* The claim: every table that respects what ecc_mul lays out and meets the chip's gates and the
   range-check lookup holds [alpha] base in the returned cells.  The base is a point of the curve
   whose order divides q = 2^(bits - 1) + t_q, as for every point of Pallas. *)
Definition mul_sound : Prop :=
  forall (inst : nat -> nat -> value F) (T : table F) (place : nat -> int) (usable : int -> Prop)
         (r : nat) (alpha : acell F) (base : ecpoint F) res n B,
  lreturns inst r (ecc_mul pf m c alpha base) = Ok (res, n) ->
  lrespects T place inst r (ecc_mul pf m c alpha base) ->
  gates_hold T (mul_gates F m c) ->
  looked_up T usable [:: lrc_lookup F (ov_lookup (mu_ovf c)) (mp_K m)] [:: table_idx (ov_lookup (mu_ovf c))] ->
  range_table T usable (table_idx (ov_lookup (mu_ovf c))) (mp_K m) ->
  (forall row, t_selector T (q_lookup (ov_lookup (mu_ovf c))) row -> usable row) ->
  on_curve b (Some B) -> pmul (2 ^ (mp_bits m - 1) + mp_tq m) (Some B) = None ->
  point_in T place base (Some B) ->
  point_in T place res.1 (pmul (pf_val pf (cell_value T place (ac_cell alpha))) (Some B)).
End Spec.

Section BaseFree.
Variables (F : fieldType) (inst : nat -> nat -> value F).
Implicit Types (o : rop F).

(* forget the advice values a prover supplies: [respects] does not look at them *)
Definition forget o : rop F := if o is OAdvice c off _ then OAdvice c off unknown else o.
Lemma respects_forget T place region (l l' : seq (rop F)) : map forget l = map forget l' ->
  respects T place region l <-> respects T place region l'.
Proof.
have key o : respects_op T place region (forget o) = respects_op T place region o by case: o.
have gen k : respects T place region k <-> respects T place region (map forget k).
  elim: k => [|o k IH]; first by split=> _; constructor.
  by rewrite /= !respects_cons key IH.
by move=> e; rewrite gen e -gen.
Qed.
(* two runs that differ in the prover's values only, and return R-related results *)
Definition alike {A : Type} (R : A -> A -> Prop) (p p' : rprog F A) : Prop :=
  exists r r', [/\ returns inst p = Ok r, returns inst p' = Ok r', map forget (calls inst p) = map forget (calls inst p') & R r r'].
Lemma alike_ret (A : Type) (R : A -> A -> Prop) a a' : R a a' -> alike R (RRet F a) (RRet F a').
Proof. by move=> h; exists a, a'. Qed.
Lemma alike_advice (A : Type) (R : A -> A -> Prop) col off v v' p p' :
  alike R p p' -> alike R (RAdvice col off v p) (RAdvice col off v' p').
Proof. by case=> r [r' [e e' ef h]]; exists r, r'; split=> //=; rewrite ef. Qed.
Lemma alike_equal (A : Type) (R : A -> A -> Prop) x y (p p' : rprog F A) :
  alike R p p' -> alike R (RConstrainEqual x y p) (RConstrainEqual x y p').
Proof. by case=> r [r' [e e' ef h]]; exists r, r'; split=> //=; rewrite ef. Qed.
Lemma alike_enable (A : Type) (R : A -> A -> Prop) x y p p' :
  alike R p p' -> alike R (REnable x y p) (REnable x y p').
Proof. by case=> r [r' [e e' ef h]]; exists r, r'; split=> //=; rewrite ef. Qed.
Lemma alike_bind (A C : Type) (R : A -> A -> Prop) (S : C -> C -> Prop) p p' f f' :
  alike R p p' -> (forall a a', R a a' -> alike S (f a) (f' a')) -> alike S (rbindp p f) (rbindp p' f').
Proof.
case=> r [r' [e e' ef h]] /(_ _ _ h)[t [t' [u u' uf ut]]]; exists t, t'.
by rewrite !returns_bind e e' (calls_bind _ e) (calls_bind _ e') !map_cat ef uf.
Qed.
Lemma enable_rows_ok s off n : returns inst (enable_rows F s off n) = Ok tt.
Proof. by rewrite /enable_rows; elim: (iota 0 n). Qed.

Definition same_cells (r r' : ecell F * value (assigned F) * seq (acell F)) : Prop :=
  ec_cell r.1.1 = ec_cell r'.1.1 /\ map (@ac_cell F) r.2 = map (@ac_cell F) r'.2.
Lemma dbl_loop_alike c region offset bits x_p y_p x_p' y_p' row (x_a x_a' : ecell F) ya ya' (z z' : acell F) :
  ec_cell x_a = ec_cell x_a' ->
  alike same_cells (dbl_loop c region offset x_p y_p row bits x_a ya z) (dbl_loop c region offset x_p' y_p' row bits x_a' ya' z').
Proof.
elim: bits row x_a x_a' ya ya' z z' => [|k bits IH] row x_a x_a' ya ya' z z' ea; first exact: alike_ret.
rewrite /=; do 6!apply: alike_advice; apply: alike_bind; first exact: IH.
by move=> t t' [h1 h2]; apply: alike_ret; split=> //=; rewrite h2.
Qed.

(* The constraints that double_and_add lays down, and the cells it returns, are the same whatever
   base point it is given. *)
Theorem C50_incomplete_base_free T place c n region offset base base' bits acc r r' :
  returns inst (double_and_add c n region offset base bits acc) = Ok r ->
  returns inst (double_and_add c n region offset base' bits acc) = Ok r' ->
  (respects T place region (calls inst (double_and_add c n region offset base bits acc)) <->
   respects T place region (calls inst (double_and_add c n region offset base' bits acc))) /\
  [/\ ec_cell r.1.1 = ec_cell r'.1.1, ec_cell r.1.2 = ec_cell r'.1.2 & map (@ac_cell F) r.2 = map (@ac_cell F) r'.2].
Proof.
move=> h h'; pose S (r r' : ecell F * ecell F * seq (acell F)) :=
  [/\ ec_cell r.1.1 = ec_cell r'.1.1, ec_cell r.1.2 = ec_cell r'.1.2 & map (@ac_cell F) r.2 = map (@ac_cell F) r'.2].
suff [t [t' [e e' ef]]] : alike S (double_and_add c n region offset base bits acc) (double_and_add c n region offset base' bits acc).
  have et : t = r by move: e; rewrite h => -[->].
  have et' : t' = r' by move: e'; rewrite h' => -[->].
  rewrite et et' => hs; split; last exact: hs.
  exact: respects_forget.
move: h h'; case: acc => [[ax ay] az]; rewrite /double_and_add; case: ifP => // _.
case: v_error_if_known_and => [[]|//|//]; case: v_error_if_known_and => [[]|//|//] _ _.
rewrite /=; apply: alike_enable; apply: (@alike_bind _ _ (fun _ _ => True)).
  by exists tt, tt; split; rewrite ?enable_rows_ok; first [done | exact: (erefl tt)].
move=> _ _ _ /=; apply: alike_enable; do 3!(apply: alike_advice; apply: alike_equal).
apply: alike_bind; first exact: dbl_loop_alike.
move=> [[xa ya] zs] [[xa' ya'] zs'] [/= h1 h2]; apply: alike_advice; exact: alike_ret.
Qed.
End BaseFree.
Print Assumptions C50_incomplete_base_free.

Definition mp97 := MulParams 1 2 3 15 4 2.
Definition lrc97 := LRC 20 21 22 9 0.
Definition dhi97 := DblConfig 4 5 6 9 3 0 4 5 1.
Definition dlo97 := DblConfig 7 8 9 6 7 0 8 2 1.
Definition comp97 := CompConfig 10 9 addc97.
Definition ovf97 := OvfConfig 11 lrc97 6 7 8.
Definition mulc97 := MulConfig 12 addc97 dhi97 dlo97 comp97 ovf97.
Definition cells97 : seq (seq nat) :=
  ([:: [:: 1; 5; 1; 0; 86; 86; 0; 1; 1; 1; 1; 1; 86; 1; 1; 0; 0; 0; 0; 0; 0; 0; 0; 0; 0; 0; 0; 0; 0; 0];
       [:: 43; 0; 43; 0; 41; 41; 0; 54; 43; 43; 43; 54; 41; 54; 43; 0; 0; 0; 0; 0; 0; 0; 0; 0; 0; 0; 0; 0; 0; 0];
       [:: 0; 0; 1; 59; 35; 62; 0; 1; 0; 1; 59; 86; 59; 57; 72; 0; 0; 0; 0; 0; 0; 0; 0; 0; 0; 0; 0; 0; 0; 0];
       [:: 0; 0; 43; 61; 59; 1; 0; 43; 0; 43; 61; 41; 61; 92; 26; 0; 0; 0; 0; 0; 0; 0; 0; 0; 0; 0; 0; 0; 0; 0];
       [:: 0; 0; 35; 61; 7; 43; 0; 62; 43; 35; 7; 90; 28; 18; 0; 0; 0; 0; 0; 0; 0; 0; 0; 0; 0; 0; 0; 0; 0; 0];
       [:: 0; 0; 0; 0; 62; 0; 0; 0; 96; 0; 92; 8; 79; 26; 0; 0; 0; 0; 0; 0; 0; 0; 0; 0; 0; 0; 0; 0; 0; 0];
       [:: 0; 0; 1; 0; 0; 1; 0; 1; 1; 1; 1; 1; 44; 1; 0; 0; 0; 0; 0; 0; 0; 0; 5; 0; 0; 0; 20; 1; 1; 0];
       [:: 0; 0; 1; 0; 1; 1; 1; 1; 0; 1; 74; 44; 74; 80; 0; 0; 0; 0; 0; 0; 0; 0; 0; 0; 0; 0; 0; 5; 0; 0];
       [:: 0; 0; 44; 43; 7; 90; 43; 0; 0; 44; 0; 0; 0; 0; 0; 0; 0; 0; 0; 0; 0; 0; 0; 0; 0; 0; 0; 5; 0; 0];
       [:: 0; 0; 0; 0; 0; 0; 0; 1; 43; 2; 43; 5; 43; 10; 20; 0; 0; 0; 0; 0; 0; 0; 0; 5; 1; 0; 0; 0; 0; 0]])%N.
Definition sels97 : seq (seq nat) :=
  ([:: [:: 1];  [::];  [:: 3];  [:: 4; 7];  [:: 6; 8];  [:: 9];  [::];  [:: 3];  [:: 3; 10];  [:: 3];  [:: 3; 10];  [:: 3];  [:: 3; 10];  [:: 3; 12];  [::];  [::];  [::];  [::];  [::];  [::];  [::];  [::];  [::];  [:: 20; 21];  [:: 20; 21];  [::];  [::];  [:: 11];  [::];  [::]])%N.
(* The forged table: alpha = 5 and base = P97, but the incomplete rows (4 and 5) hold [3] P97. *)
Definition T97 : table F97 := Table
  (fun k col row => match k, row with
     | Advice, Posz i => (nth 0%N (nth [::] cells97 col) i)%:R
     | Fixed, Posz i => if (i < 4)%N then i%:R else 0
     | _, _ => 0 end)
  (fun s row => if row is Posz i then s \in nth [::] sels97 i else false).
Definition place97 (r : nat) : int := Posz (nth 0%N [:: 0; 1; 2; 22; 23; 26] r)%N.
Definition usable97 (row : int) : Prop := if row is Posz i then (i < 30)%N else False.
Definition inst97 : nat -> nat -> value F97 := fun _ _ => unknown.
(* as in key generation, no values are known *)
Definition alpha97 : acell F97 := ACell unknown (Cell 1 0 (Advice, 0%N)).
Definition base97 : ecpoint F97 :=
  ECPoint (ECell unknown (Cell 0 0 (Advice, 0%N))) (ECell unknown (Cell 0 0 (Advice, 1%N))).

Section Decide.
Variables (F : fieldType) (T : table F) (place : nat -> int).
Definition respects_opb (r : nat) (o : rop F) : bool :=
  match o with
  | OEnable s off => t_selector T s (place r + off%:Z)
  | OFixed c off v => if inner v is Some x then t_cell T Fixed c (place r + off%:Z) == denote x else true
  | OAdviceConstant c off x => t_cell T Advice c (place r + off%:Z) == denote x
  | OAdviceInstance i row c off _ => t_cell T Advice c (place r + off%:Z) == t_cell T Instance i row%:Z
  | OConstrainConstant c x => cell_value T place c == denote x
  | OConstrainEqual c c' => cell_value T place c == cell_value T place c'
  | OAdvice _ _ _ | OInstanceValue _ _ => true
  end.
Lemma respects_opP r o : respects_opb r o -> respects_op T place r o.
Proof.
case: o => //=; try by move=> *; apply/eqP.
by move=> c off [[x|]] //= /eqP h y [<-].
Qed.
Lemma respectsP (l : seq (nat * seq (rop F))) : all (fun rc => all (respects_opb rc.1) rc.2) l ->
  List.Forall (fun c => respects T place c.1 c.2) l.
Proof.
elim: l => [|[r ops] l IH] /=; first by constructor.
case/andP=> h /IH hl; constructor=> //=; elim: ops h => [|o ops IH'] /=; first by constructor.
by case/andP=> /respects_opP ho /IH' hs; constructor.
Qed.
End Decide.

Definition run97 : lprog F97 (ecpoint F97 * acell F97) := ecc_mul pf97 mp97 mulc97 alpha97 base97.
(* the x coordinate of the returned point *)
Definition result97 : F97 :=
  if lreturns inst97 2 run97 is Ok (res, _) then cell_value T97 place97 (ec_cell (ep_x res.1)) else 0.
Lemma cheat_returns : if lreturns inst97 2 run97 is Ok _ then true else false. Proof. by vm_compute. Qed.
Lemma cheat_respects : all (fun rc => all (respects_opb T97 place97 rc.1) rc.2) (lregions inst97 2 run97).
Proof. by vm_compute. Qed.
Lemma cheat_instances : size (linstances inst97 2 run97) == 0%N.
Proof. by vm_compute. Qed.
Lemma cheat_gates : all (fun row => all (fun g => at_row T97 (Posz row) g == 0) (mul_gates F97 mp97 mulc97)) (iota 0 30).
Proof. by vm_compute. Qed.
Lemma cheat_lookups : all (fun row => has (fun row' => at_row T97 (Posz row) (lrc_lookup F97 lrc97 2) == t_cell T97 Fixed 0 (Posz row'))
    (iota 0 30)) (iota 0 30).
Proof. by vm_compute. Qed.
Lemma cheat_alpha : cell_value T97 place97 (ac_cell alpha97) == 5%:R. Proof. by vm_compute. Qed.
Lemma cheat_base : (cell_value T97 place97 (ec_cell (ep_x base97)) == 1) && (cell_value T97 place97 (ec_cell (ep_y base97)) == 43%:R).
Proof. by vm_compute. Qed.
Lemma cheat_result : result97 != (encode (pmul (pf_val pf97 5%:R) (Some (1, 43%:R)))).1.
Proof. by vm_compute. Qed.
Lemma cheat_point : on_curve b97 (Some (1, 43%:R)) && (pmul (2 ^ (mp_bits mp97 - 1) + mp_tq mp97) (Some (1, 43%:R : F97)) == None).
Proof. by vm_compute. Qed.
(* without a selector the gates are zero *)
Lemma gated_off (F : fieldType) (T : table F) row (q : nat) (ps : seq (expr F)) :
  t_selector T q row = false -> all (fun g => at_row T row g == 0) [seq EProduct (ESelector F q true) p | p <- ps].
Proof. by move=> h; elim: ps => //= p ps ->; rewrite at_mul at_sel h mul0r eqxx. Qed.
Lemma mul_gates_off (F : fieldType) (T : table F) row m c : (forall q, t_selector T q row = false) ->
  all (fun g => at_row T row g == 0) (mul_gates F m c).
Proof.
move=> h; rewrite /mul_gates /add_gates /comp_gates /ovf_gates /lsb_gates.
have hd d : all (fun g => at_row T row g == 0) (dbl_gates F d).
  by rewrite /dbl_gates all_cat all_cat; apply/andP; split; [|apply/andP; split]; apply: gated_off.
by rewrite 5!all_cat !hd !gated_off.
Qed.

Lemma lookup_off (F : fieldType) (T : table F) row c K :
  t_selector T (q_lookup c) row = false -> at_row T row (lrc_lookup F c K) = 0.
Proof. by move=> h; rewrite /lrc_lookup at_mul at_sel h mul0r. Qed.
Lemma sel97 s row : t_selector T97 s row -> usable97 row.
Proof.
case: row => // i; rewrite /usable97; case: (ltnP i 30) => // hi; rewrite /T97 /=.
by rewrite nth_default.
Qed.

Lemma fixed97 i : t_cell T97 Fixed 0 (Posz i) = if (i < 4)%N then i%:R else 0. Proof. by []. Qed.
#[local] Opaque T97 run97 pf97 mul_gates lrc_lookup.

(* The claim is false: a table that meets every constraint, with alpha = 5 and the base a point of
   the curve y^2 = x^3 + 5 over F_97 (all 79 of whose points have order dividing
   79 = 2^6 + 15), returns [4] base. *)
Theorem C50_mul_sound_refuted :
  good_curve b97 /\ ~ mul_sound b97 pf97 mp97 mulc97.
Proof.
split; first exact: good97.
move=> claim.
have /andP[hB /eqP hq] := cheat_point.
have hb : point_in T97 place97 base97 (Some (1, 43%:R)).
  by have /andP[/eqP e1 /eqP e2] := cheat_base; rewrite /point_in e1 e2.
have hr : lrespects T97 place97 inst97 2 run97.
  split; first by apply: respectsP; exact: cheat_respects.
  by have := cheat_instances; case: (linstances _ _ _) => // _; constructor.
have off i (hi : (30 <= i)%N) q : t_selector T97 q (Posz i) = false.
  by apply/negP => /sel97; rewrite /usable97 ltnNge hi.
have offn i q : t_selector T97 q (Negz i) = false by apply/negP => /sel97.
have hg : gates_hold T97 (mul_gates F97 mp97 mulc97).
  case=> i; last by apply: mul_gates_off.
  case: (ltnP i 30) => hi; first by apply: (allP cheat_gates); rewrite mem_iota.
  by apply: mul_gates_off => q; apply: off.
have hl : looked_up T97 usable97 [:: lrc_lookup F97 lrc97 2] [:: 0%N].
  move=> [i|i] hi; last by case: hi.
  have hm : i \in iota 0 30 by rewrite mem_iota; exact: hi.
  have /hasP[j hj /eqP ej] := allP cheat_lookups i hm.
  exists (Posz j); first by move: hj; rewrite mem_iota.
  by congr [:: _].
have ht : range_table T97 usable97 0 2.
  split.
    move=> [i|i] hi; last by case: hi.
    rewrite /word fixed97; case: (ltnP i 4) => hi4; first by exists i.
    by exists 0%N.
  move=> k hk; exists (Posz k); first by rewrite /usable97 (leq_trans hk).
  by rewrite fixed97 hk.
have := cheat_returns; have := cheat_result; rewrite /result97.
case e: (lreturns inst97 2 run97) => [[res n]|//|//] + _.
have := claim inst97 T97 place97 usable97 2%N alpha97 base97 res n _ e hr hg hl ht (fun row => @sel97 _ row) hB hq hb.
by rewrite /point_in (eqP cheat_alpha) => <-; rewrite eqxx.
Qed.
Print Assumptions C50_mul_sound_refuted.
