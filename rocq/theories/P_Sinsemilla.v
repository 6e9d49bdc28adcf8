(* C54: the Sinsemilla chip computes the Sinsemilla hash of the message it was given. *)
Set Warnings "-notation-overridden,-ambiguous-paths".
From mathcomp Require Import all_ssreflect all_algebra.
From Verif Require Import FieldTac Util M_Env M_Assigned P_Assigned M_Circuit S_Circuit M_Selectors M_Value M_Region S_Region
  M_Layout S_Layout M_Utilities S_Digits P_Bits P_RangeCheck L_Region L_Gadget M_Ecc S_Curve L_Curve L_Multiples P_Ecc P_CondSwap
  M_EccMul L_EccMul M_Sinsemilla S_Sinsemilla L_Sinsemilla.
Import GRing.Theory.
Set Implicit Arguments.
Unset Strict Implicit.
Local Open Scope ring_scope.
Local Arguments at_row : simpl never.
Local Arguments esub : simpl never.
Local Arguments padd : simpl never.

Lemma words_of_dval K ws : all (fun w => (w < 2 ^ K)%N) ws -> words_of K (size ws) (dval (2 ^ K) ws) = ws.
Proof.
move=> ha; apply: (@eq_from_nth _ 0%N); rewrite size_map size_iota // => i hi.
rewrite (nth_map 0%N) ?size_iota // nth_iota // add0n expnM dval_drop ?expn_gt0 //; last exact: ltnW.
rewrite (drop_nth 0%N hi); case: (@dval_mod (2 ^ K) (drop i.+1 ws) (nth 0%N ws i)) => //.
by apply: (allP ha); apply: mem_nth.
Qed.

Section Sound.
Variables (F : fieldType) (pf : prime_field F) (p : nat).
Hypothesis pok : prime_field_ok pf p.
Variables (K : nat) (gens : seq (F * F)).
Variables (T : table F) (place : nat -> int) (inst : nat -> nat -> value F) (c : sins_config).
Hypothesis two0 : (2%:R : F) != 0.
Variable usable : int -> Prop.
Hypothesis hg : gates_hold T (sins_gates F c).
Hypothesis hl : looked_up T usable (sins_lookup K gens c) (sins_columns c).
Hypothesis ht : generator_table K gens T c usable.
Let d := sc_dbl c.
Let S w := nth (0, 0) gens w.
Notation "'val' a" := (cell_value T place (ac_cell a)) (at level 10, a at level 8).

Section Region.
Variable r : nat.
Hypothesis huse : forall k : nat, t_selector T (q_s1 c) (place r + k%:Z) -> usable (place r + k%:Z).
Notation rsound := (rsound T place inst r).
Notation at_ col o := (t_cell T Advice col (place r + (o)%N%:Z)).
Notation y_at o := (y_row T place r c o).

Lemma rsound_e_constant col o v (Q : ecell F -> Prop) :
  (t_cell T Advice col (place r + o%:Z) = denote v -> Q (ECell (known v) (Cell r o (Advice, col)))) ->
  rsound (assign_e_constant r col o v) Q.
Proof. by move=> h a [<-]; rewrite /= respects_cons => -[/h]. Qed.
Lemma fixed_ones_sound col o n (Q : unit -> Prop) :
  ((forall i, (i < n)%N -> t_cell T Fixed col (place r + (o + i)%N%:Z) = 1) -> Q tt) -> rsound (fixed_ones F col r o n) Q.
Proof.
elim: n o Q => [|n IH] o Q h; first by apply: rsound_ret; apply: h.
apply: rsound_bind; apply: rsound_fixed => h1; apply: IH => h2; apply: h => -[|i] hi.
  by rewrite addn0; apply: h1.
by rewrite addnS -addSn; apply: h2.
Qed.
Lemma piece_sums_sound o inv z idx ws :
  rsound (piece_sums c r o inv z idx ws) (fun zs =>
    [seq ac_cell a | a <- zs] = [seq Cell r (o + i) (Advice, sc_bits c) | i <- iota idx.+1 (size ws)]).
Proof.
elim: ws z idx => [|w ws IH] z idx; first exact: rsound_ret.
apply: rsound_bind; apply: rsound_advice; apply: rsound_bind; apply: rsound_weaken (IH _ _) => zs e.
by apply: rsound_ret; rewrite /= e addn1 addnS.
Qed.
Lemma piece_rows_sound o row gs xa ya :
  rsound (piece_rows c r o row gs xa ya) (fun t =>
    ec_cell t.1 = if gs is [::] then ec_cell xa else Cell r (o + row + size gs) (Advice, db_xa d)).
Proof.
elim: gs row xa ya => [|g gs IH] row xa ya; first exact: rsound_ret.
apply: rsound_bind; apply: rsound_advice; do 2!(apply: rsound_bind; apply: rsound_e); apply: rsound_bind; apply: rsound_e.
apply: rsound_weaken (IH _ _ _) => -[xa' ya'] /= ->.
by case: (gs) => [|g' gs'] /=; congr Cell; nlia.
Qed.

(* what one piece establishes *)
Definition piece_fact (q : piece F) (zs : seq (acell F)) (ws : seq nat) : Prop :=
  [/\ size ws = pc_words q, all (fun w => (w < 2 ^ K)%N) ws, val (pc_cell q) = (dval (2 ^ K) ws)%:R &
      [seq val a | a <- zs] = [seq (dval (2 ^ K) (drop j ws))%:R | j <- iota 0 (pc_words q)]].
Lemma map_transpose_size (A C : Type) (f : A -> option (seq C)) u n s : map_transpose f u n = Some s -> size s = n.
Proof.
rewrite /map_transpose /v_transpose_vec; case: (inner u) => [x|] /=; last by case=> <-; rewrite size_map size_iota.
by case: (f x) => //= ws; case: eqP => // <- [<-]; rewrite size_map.
Qed.
Lemma hash_piece_sound o q xa ya final :
  ec_cell xa = Cell r o (Advice, db_xa d) ->
  rsound (hash_piece pf K gens c r o q xa ya final) (fun t =>
    ec_cell t.1.1 = Cell r (o + pc_words q) (Advice, db_xa d) /\ exists ws, piece_fact q t.2 ws /\
    forall A, hash_to_point_spec S (at_ (db_xa d) o, y_at o) ws = Some A ->
      A = (at_ (db_xa d) (o + pc_words q), if final then at_ (db_l1 d) (o + pc_words q) else y_at (o + pc_words q))).
Proof.
move=> cx; rewrite /hash_piece /piece_selectors; set n := pc_words q.
apply: rsound_bind; case: ifP => [_|/negbT n0]; first exact: rsound_panic.
apply: rsound_bind; apply: rsound_enable_rows => h1; apply: rsound_bind; apply: fixed_ones_sound => h2.
apply: rsound_bind; apply: rsound_fixed => h3; apply: rsound_ret; have {}h3 := h3 _ erefl.
case e1: (map_transpose _ _ _) => [words|]; last exact: rsound_panic.
case e2: (map_transpose _ _ _) => [gs|]; last exact: rsound_panic.
apply: rsound_bind; apply: rsound_copy => h4; apply: rsound_bind.
apply: rsound_weaken (@piece_sums_sound _ _ _ _ _) => zs ez; apply: rsound_bind.
apply: rsound_weaken (@piece_rows_sound _ _ _ _ _) => -[xa' ya'] ea; apply: rsound_ret; rewrite /= in ea ez *.
have [s1 s2] := (map_transpose_size e1, map_transpose_size e2).
have n1 : (0 < n)%N by rewrite lt0n.
have [ws hsz [ha hz hA]] := piece_ok two0 hg hl ht huse n1 h1 h2 h3.
split; first by move: ea; rewrite addn0 s2; case: (gs) s2 => // s2; rewrite -s2 in n1.
exists ws; split; last exact: hA.
have e0 := hz 0%N n1; rewrite addn0 drop0 in e0.
split=> //; first by rewrite -h4.
rewrite [in RHS](_ : iota 0 (pc_words q) = 0%N :: iota 1 (n - 1)); last by rewrite -/n; case: (n) n1 => // n' _; rewrite subn1.
rewrite /= drop0; congr cons; first exact: e0.
rewrite [LHS](map_comp (cell_value T place) (@ac_cell F)) ez -map_comp.
rewrite size_takel ?s1 ?leq_subr //; apply/eq_in_map => i; rewrite mem_iota => /andP[i1 i2] /=.
by rewrite -hz //; nlia.
Qed.

Lemma hash_pieces_sound o ps xa ya : (0 < size ps)%N ->
  ec_cell xa = Cell r o (Advice, db_xa d) ->
  rsound (hash_pieces pf K gens c r o ps xa ya) (fun t => let: (o', xa', _, zss) := t in
    ec_cell xa' = Cell r o' (Advice, db_xa d) /\ exists wss : seq (seq nat), [/\ size wss = size ps, size zss = size ps,
    (forall i q0, (i < size ps)%N -> piece_fact (nth q0 ps i) (nth [::] zss i) (nth [::] wss i)) &
    forall A, hash_to_point_spec S (at_ (db_xa d) o, y_at o) (flatten wss) = Some A ->
      A = (at_ (db_xa d) o', at_ (db_l1 d) o')]).
Proof.
elim: ps o xa ya => [//|q ps IH] o xa ya _ cx.
apply: rsound_bind; apply: rsound_weaken (@hash_piece_sound o q xa ya _ cx) => -[[xa' ya'] zs] [e1 [ws [hf hA]]].
rewrite /= in e1 hA; apply: rsound_bind; case: ps IH hA => [|q' ps] IH hA.
  apply: rsound_ret; apply: rsound_ret => /=; split=> //; exists [:: ws]; split=> //; first by case.
  by rewrite /= cats0.
apply: rsound_weaken (IH (o + pc_words q)%N xa' ya' isT e1) => -[[[o' xa''] ya''] zss] [e2 [wss [h1 h2 h3 h4]]].
apply: rsound_ret; split=> //; exists (ws :: wss); split; rewrite /= ?h1 ?h2 //.
  by case=> [|i] q0 hi //=; apply: h3.
move=> A; rewrite hash_cat; case E: (hash_to_point_spec _ _ ws) => [B|] //=.
by rewrite (hA _ E); exact: h4.
Qed.

Notation piece_int := (piece_int pf T place).
Notation hash_facts := (hash_facts pf K gens T place).
Lemma all_pieces_sound o message xa ya Q : (0 < size message)%N -> all (fun q => (pc_words q * K < pf_num_bits pf)%N) message ->
  ec_cell xa = Cell r o (Advice, db_xa d) -> at_ (db_xa d) o = Q.1 -> y_at o = Q.2 ->
  rsound (hash_all_pieces pf K gens c r o message xa ya) (fun t => hash_facts Q message (ECPoint t.1.1 t.1.2) t.2).
Proof.
move=> m0 hm cx ex ey; apply: rsound_bind; apply: rsound_weaken (@hash_pieces_sound o message xa ya m0 cx).
case=> [[[o' xa'] ya'] zss] [e1 [wss [h1 h2 h3 h4]]].
apply: rsound_bind; apply: rsound_e; do 2!(apply: rsound_bind; apply: rsound_advice); apply: rsound_ret.
pose q0 : piece F := Piece (ACell unknown (Cell 0 0 (Advice, 0%N))) 0.
have int i : (i < size message)%N -> let q := nth q0 message i in let ws := nth [::] wss i in
    [/\ piece_int q = dval (2 ^ K) ws, (dval (2 ^ K) ws < 2 ^ (K * pc_words q))%N & words_of K (pc_words q) (piece_int q) = ws].
  move=> hi q ws; have [f1 f2 f3 f4] := h3 i q0 hi.
  have lt : (dval (2 ^ K) ws < 2 ^ (K * pc_words q))%N by rewrite expnM -f1; apply: dval_lt.
  have hq : (pc_words q * K < pf_num_bits pf)%N by have /(all_nthP q0)/(_ i hi) := hm.
  have ei : piece_int q = dval (2 ^ K) ws.
    rewrite /piece_int f3 (val_natr pok) //; apply: leq_trans lt _.
    have /andP[hp _] := pf_bits pok; apply: leq_trans hp; rewrite leq_exp2l // mulnC; nlia.
  by split=> //; rewrite ei -f1 words_of_dval.
split.
- by apply/(all_nthP q0) => i hi; have [-> ? _] := int i hi.
- apply: (@eq_from_nth _ [::]); rewrite !size_map h2 // => i hi.
  rewrite (nth_map [::]) ?h2 // (nth_map q0) //; have [f1 f2 f3 ->] := h3 i q0 hi; have [-> _ _] := int i hi.
  apply/eq_in_map => j; rewrite mem_iota => /andP[_ hj]; rewrite expnM dval_drop ?expn_gt0 // f1; exact: ltnW.
move=> A; rewrite /message_words; have -> : [seq words_of K (pc_words q) (piece_int q) | q <- message] = wss.
  apply: (@eq_from_nth _ [::]); rewrite size_map // => i hi; rewrite (nth_map q0) //; by have [_ _ ->] := int i hi.
case: Q ex ey => Qx Qy /= <- <- /h4 ->; by rewrite /point_in /= e1.
Qed.
(* the initial y-coordinate *)
Lemma init_y o y : t_selector T (q_s4 c) (place r + o%:Z) ->
  (if allow_private c then t_cell T Advice (db_xp d) (place r + o%:Z - 1) else t_cell T Fixed (fixed_y_q c) (place r + o%:Z)) = y ->
  y_at o = y.
Proof.
move=> hs <-; have := gate_at (place r + o%:Z) hg (or_introl erefl); rewrite at_mul at_sel hs mul1r.
rewrite at_sub Y_A0 at_scale => /eqP; rewrite subr_eq0 => /eqP e; rewrite /y_row -e mulrA mulVf // mul1r.
by case: (allow_private c); rewrite ?at_adv ?at_fixed ?addr0.
Qed.
End Region.

(* C54: whatever the prover assigns.  Each piece is an integer of at most K * num_words bits, the running
   sums are what is left after each word, and, unless one of the incomplete additions of the hash fails, the
   point returned is the Sinsemilla hash of the words, from the given starting point. *)
Theorem C54_hash_to_point_sound (rows_usable : forall row, t_selector T (q_s1 c) row -> usable row)
    Q message r P zss r' :
  (0 < size message)%N -> all (fun q => (pc_words q * K < pf_num_bits pf)%N) message ->
  lreturns inst r (hash_to_point pf K gens c (Some Q) message) = Ok (P, zss, r') ->
  lrespects T place inst r (hash_to_point pf K gens c (Some Q) message) ->
  hash_facts pf K gens T place Q message P zss.
Proof.
move=> m0 hm e1 e2; suff h : lsound T place inst (hash_to_point pf K gens c (Some Q) message) (fun t => hash_facts pf K gens T place Q message t.1 t.2).
  exact: (h _ _ _ e1 e2).
move: e1 e2 => _ _; apply: lsound_region => {}r; case: Q => x_q y_q; apply: rsound_bind.
have huse k : t_selector T (q_s1 c) (place r + k%:Z) -> usable (place r + k%:Z) by exact: rows_usable.
apply: (@rsound_weaken _ T place inst r _ _ (fun t => let: (o, xa, _) := t in
  [/\ ec_cell xa = Cell r o (Advice, db_xa d), t_cell T Advice (db_xa d) (place r + o%:Z) = x_q & y_row T place r c o = y_q])).
  case=> [[o xa] ya] [e1 e2 e3]; apply: rsound_bind.
  apply: rsound_weaken (@all_pieces_sound r huse o message xa ya (x_q, y_q) m0 hm e1 e2 e3) => -[[xa' ya'] zs] hf.
  by apply: rsound_bind; apply: rsound_try; apply: rsound_ret.
rewrite /public_q; case: ifP => hp.
  apply: rsound_bind; apply: rsound_enable => h1; apply: rsound_bind; apply: rsound_e_constant => h2.
  apply: rsound_bind; apply: rsound_e_constant => h3; apply: rsound_ret; split=> //.
  by apply: init_y => //; rewrite hp addrK -[place r]addr0.
apply: rsound_bind; apply: rsound_enable => h1; apply: rsound_bind; apply: rsound_fixed => h2.
apply: rsound_bind; apply: rsound_e_constant => h3; apply: rsound_ret; split=> //.
by apply: init_y => //; rewrite hp; apply: h2.
Qed.
(* the same from a point in the circuit, where the chip allows it *)
Theorem C54_private_init_sound (rows_usable : forall row, t_selector T (q_s1 c) row -> usable row)
    Q A message r P zss r' :
  (0 < size message)%N -> all (fun q => (pc_words q * K < pf_num_bits pf)%N) message -> point_in T place Q (Some A) ->
  lreturns inst r (hash_to_point_with_private_init pf K gens c Q message) = Ok (P, zss, r') ->
  lrespects T place inst r (hash_to_point_with_private_init pf K gens c Q message) ->
  hash_facts pf K gens T place A message P zss.
Proof.
move=> m0 hm hQ e1 e2; suff h : lsound T place inst (hash_to_point_with_private_init pf K gens c Q message)
    (fun t => hash_facts pf K gens T place A message t.1 t.2) by exact: (h _ _ _ e1 e2).
rewrite /hash_to_point_with_private_init; case: ifP => [_|/negbFE ha]; first exact: lsound_err.
apply: lsound_region => {e1 e2} r1; rewrite /hash_message_with_private_init /private_q; case: ifP => [|_]; first by rewrite ha.
have huse k : t_selector T (q_s1 c) (place r1 + k%:Z) -> usable (place r1 + k%:Z) by exact: rows_usable.
apply: rsound_bind; case: ifP => [|_]; first by rewrite ha.
apply: rsound_bind; apply: rsound_enable => h1; apply: rsound_bind; apply: rsound_copy_e => h2.
apply: rsound_bind; apply: rsound_copy_e => h3; apply: rsound_ret.
have [x1 y1] : A.1 = cell_value T place (ec_cell (ep_x Q)) /\ A.2 = cell_value T place (ec_cell (ep_y Q)).
  by move: hQ; rewrite /point_in; case: (A) => x y [-> ->].
rewrite /= -y1 in h2; rewrite /= -x1 in h3.
have ey : y_row T place r1 c 1 = A.2 by apply: init_y => //; rewrite ha addrK -[place r1]addr0.
have hs v ya := @all_pieces_sound r1 huse 1 message (ECell v (Cell r1 1 (Advice, db_xa d))) ya A m0 hm erefl h3 ey.
apply: rsound_bind; apply: rsound_weaken (hs _ _) => -[[xa' ya'] zs] hf.
by apply: rsound_bind; apply: rsound_try; apply: rsound_bind; apply: rsound_try; apply: rsound_ret.
Qed.
Theorem C54_private_init_refused r Q message : ~~ allow_private c ->
  lreturns inst r (hash_to_point_with_private_init pf K gens c Q message) = Err EIllegalHashFromPrivatePoint.
Proof. by rewrite /hash_to_point_with_private_init => ->. Qed.
(* HashDomain::hash: the x-coordinate *)
Theorem C54_hash_sound (rows_usable : forall row, t_selector T (q_s1 c) row -> usable row) Q message r a zss r' :
  (0 < size message)%N -> all (fun q => (pc_words q * K < pf_num_bits pf)%N) message ->
  lreturns inst r (sins_hash pf K gens c (Some Q) message) = Ok (a, zss, r') ->
  lrespects T place inst r (sins_hash pf K gens c (Some Q) message) ->
  forall A, hash_to_point_spec S Q (message_words pf K T place message) = Some A -> cell_value T place (ac_cell a) = A.1.
Proof.
move=> m0 hm e1 e2 A hA; suff h : lsound T place inst (sins_hash pf K gens c (Some Q) message)
    (fun t => cell_value T place (ac_cell t.1) = A.1) by exact: (h _ _ _ e1 e2).
apply: lsound_bind => r1 t r2 e3 e4; apply: lsound_ret.
case: t e3 => P zs e3; have [_ _ /(_ A hA)] := C54_hash_to_point_sound rows_usable m0 hm e3 e4.
by rewrite /point_in /=; case: (A) => x y [].
Qed.
End Sound.
Print Assumptions C54_hash_to_point_sound.
Print Assumptions C54_private_init_sound.
Print Assumptions C54_private_init_refused.
Print Assumptions C54_hash_sound.

(* Message::from accepts an empty message, and nothing then ties the y-coordinate returned to Q: the slopes
   and x_p of the one row are free. *)
Section Empty.
Variables (F : fieldType) (pf : prime_field F) (K : nat) (gens : seq (F * F)) (inst : nat -> nat -> value F).
Add Field Ffe : (F_field_theory F).
Definition ecfg : sins_config := SinsConfig 0 0 1 1 (DblConfig 2 3 4 9 0 1 2 3 8) 4 5 2 3 4 false.
Definition etable (Q : F * F) (y : F) : table F := Table
  (fun kind col row =>
     if kind == Fixed then nth 0 [:: 0; Q.2; 0; (nth (0, 0) gens 0).1; (nth (0, 0) gens 0).2] col
     else if row == 0 then nth 0 [:: Q.1; y ^+ 2 - 2%:R * Q.1 + 1; y; 2%:R * Q.2 - y] col else 0)
  (fun s row => (s == 1%N) && (row == 0)).
Theorem C54_empty_message_refuted Q y : Q.1 != 0 -> Q.2 != 0 ->
  let T := etable Q y in let place := fun=> 0 in
  let prog := hash_to_point pf K gens ecfg (Some Q) [::] in
  [/\ gates_hold T (sins_gates F ecfg), looked_up T (fun=> True) (sins_lookup K gens ecfg) (sins_columns ecfg),
      generator_table K gens T ecfg (fun=> True), lrespects T place inst 0 prog &
      exists P zss r', lreturns inst 0 prog = Ok (P, zss, r') /\ point_in T place P (Some (Q.1, y))].
Proof.
case: Q => qx qy /= x0 y0; split.
- move=> row; rewrite /sins_gates /= !at_mul !at_sel /=; case: (row =P 0) => [->|_]; last by rewrite !mul0r eqxx.
  rewrite !mul0r eqxx !andbT mul1r; apply/eqP.
  rewrite /Y_A /x_r /esquare !(at_sub, at_sum, at_mul, at_scale, at_const, at_adv, at_fixed) /=.
  by fnorm F; ring.
- move=> row _; exists 0 => //; rewrite /sins_lookup; case e: (nth (0, 0) gens 0) => [ix iy].
  by rewrite /= !(at_sum, at_mul, at_scale, at_sub, at_const, at_sel) /= e !mul0r !add0r subr0 !mulr1.
- by move=> row _; exists 0%N; rewrite ?expn_gt0 //=; case: (nth (0, 0) gens 0).
- rewrite /lrespects /lregions /linstances /= /v_error_if_known_and /= (negbTE x0) (negbTE y0) /=; split; last by constructor.
  apply: List.Forall_cons; last by constructor.
  rewrite /respects /=; repeat (apply: List.Forall_cons => //=).
  by move=> z [<-].
by do 3!eexists; rewrite /lreturns /= /v_error_if_known_and /= (negbTE x0) (negbTE y0) /=; split.
Qed.
End Empty.
Print Assumptions C54_empty_message_refuted.
