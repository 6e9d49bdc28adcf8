(* C35: lookup tables.  A table is accepted only if its columns are complete up to one length and were
   not used by an earlier table; key generation then holds the table in the first rows and copies of
   its row 0 in all other usable rows. *)
Set Warnings "-notation-overridden,-ambiguous-paths".
From mathcomp Require Import all_ssreflect all_algebra.
From Verif Require Import Util M_Env M_Assigned P_Assigned M_Circuit S_Circuit M_Selectors L_Selectors M_Copy M_Value
  M_Region S_Region M_Layout S_Layout M_Assign M_Mock M_Floor S_Floor L_Floor L_V1 S_Assign L_Assign P_Assign P_Floor.
Import GRing.Theory.
Set Implicit Arguments.
Unset Strict Implicit.

Section Tables.
Variables (F : fieldType) (inst : nat -> nat -> value F).

(* the tables of a circuit, in order *)
Definition tables_of (es : seq (levent F)) : seq (seq (tassign F)) :=
  pmap (fun e => if e is VTable ts then Some ts else None) es.
(* number of assignments to row 0 of a column *)
Definition row0_count (ts : seq (tassign F)) (c : nat) : nat :=
  count (fun t => (ta_column t == c) && (ta_offset t == 0)) ts.
(* what every accepted table is like *)
Record table_ok (ts : seq (tassign F)) : Prop := TableOk {
  to_complete : table_complete ts;
  to_row0 : forall c, c \in table_columns ts -> row0_count ts c = 1 }.

Lemma row0_once used ts d k tr : performed inst (table_cells used ts d k) = Ok tr ->
  forall c, row0_count ts c + isSome (tget d c).1 <= 1.
Proof.
elim: ts d tr => [|t ts IH] d tr /=; first by move=> _ c; case: (tget d c).1.
case: ifP => // hu; rewrite -/(tstep d t) => /performed_op [t'].
case: ifP => // h0 /IH h _ c; have := h c; rewrite /tstep tget_tput /row0_count /=.
case: (c =P ta_column t) => [->|ne]; last by case: (ta_column t =P c) ne => // -> //.
rewrite eqxx /=; case: (ta_offset t =P 0) h0 => [e0|//] /= /negbT.
by case: (tget d _).1 => //= _; rewrite addn0 addn1.
Qed.

Lemma place_table_ok used ts k tr : performed inst (place_table used ts k) = Ok tr -> table_ok ts.
Proof.
move=> h; have [tr2 [_ _ hc _]] := place_tableP h; split=> // c hcol.
move: h => /performed_op [tr1 /row0_once /(_ c) /= h _].
have : 0 < row0_count ts c.
  rewrite -has_count hc //; case: (table_length ts =P 0) => [e|/eqP]; last by rewrite lt0n.
  have : c \in [seq ta_column t | t <- ts] by move: hcol; rewrite mem_rev mem_undup mem_rev.
  move=> /mapP_In [t ht _]; have : (ta_offset t).+1 <= table_length ts.
    rewrite /table_length; elim: (ts) ht => //= x s IH [->|/IH hh]; rewrite leq_max ?leqnn //.
    by rewrite hh orbT.
  by rewrite e.
by rewrite addn0 in h; move=> h0; apply/eqP; rewrite eqn_leq h h0.
Qed.

(* every table is accepted, and uses none of the columns of the tables before it nor of [used] *)
Fixpoint tables_apart (used : seq nat) (tss : seq (seq (tassign F))) : Prop :=
  if tss is ts :: tss' then
    [/\ table_ok ts, all (fun c => c \notin used) (table_columns ts) & tables_apart (used ++ table_columns ts) tss']
  else True.

Lemma single_tables A constants (p : lprog F A) st k tr :
  performed inst (single_layout constants st p k) = Ok tr ->
  tables_apart (sg_tables st) (tables_of (levents inst (size (sg_regions st)) p)).
Proof.
elim: p st tr => //= [C body q IH|ts q IH|c col row q IH] st tr.
- set r := size (sg_regions st); case: (M_Region.returns _ (body r)) => // _.
  set s := shape_of _; set start := region_start _ s; set st1 := Single _ _ _.
  move=> /performed_op [t1 /place_regionP [d [t2 [hd h2 ht]]] _]; rewrite hd.
  move: h2 => /performed_op [t3 /assign_constantsP [st2 [t4 [h4 [er et] ec hn hcc]]] e3].
  have es2 : size (sg_regions st2) = r.+1 by rewrite er /= size_rcons.
  by have := IH d st2 t4 h4; rewrite es2 et.
- move=> h; have hok := @place_table_ok _ ts (fun tables =>
    single_layout constants (Single (sg_regions st) (sg_columns st) tables) q k) tr h.
  have [t2 [/IH /= h2 _ _ hu]] := @place_tableP _ inst _ ts (fun tables =>
    single_layout constants (Single (sg_regions st) (sg_columns st) tables) q k) tr h.
  by split.
- by move=> /with_rowP [s hs] /performed_op [t2 /IH].
Qed.
Lemma v1_tables A regions r tables cs (p : lprog F A) k tr :
  performed inst (v1_layout regions r tables cs p k) = Ok tr ->
  tables_apart tables (tables_of (levents inst r p)).
Proof.
elim: p r tables cs tr => //= [C body q IH|ts q IH|c col row q IH] r tables cs tr.
- move=> /performed_op [t1 /place_regionP [d [t2 [-> h2 ht]]] _].
  by move: h2 => /performed_op [t3 /IH].
- move=> h; have hok := @place_table_ok _ ts (fun tables => v1_layout regions r tables cs q k) tr h.
  have [t2 [/IH h2 _ _ hu]] := @place_tableP _ inst _ ts (fun tables =>
    v1_layout regions r tables cs q k) tr h.
  by split.
- by move=> /with_rowP [s hs] /performed_op [t2 /IH].
Qed.

(* In both planners: every table of an accepted circuit is complete with row 0 assigned once, and no
   two tables have a column in common. *)
Definition tables_accepted (p : lprog F unit) : Prop :=
  let tss := tables_of (levents inst 0 p) in
  (forall ts, List.In ts tss -> table_ok ts) /\
  (forall i j c, i < j < size tss -> c \in table_columns (nth [::] tss i) -> c \notin table_columns (nth [::] tss j)).

Lemma apartP used tss : tables_apart used tss ->
  (forall ts, List.In ts tss -> table_ok ts /\ all (fun c => c \notin used) (table_columns ts)) /\
  (forall i j c, i < j < size tss -> c \in table_columns (nth [::] tss i) -> c \notin table_columns (nth [::] tss j)).
Proof.
elim: tss used => [|ts tss IH] used /=; first by move=> _; split=> // i j c; rewrite ltn0 andbF.
move=> [h1 h2 /IH [h3 h4]]; split.
- move=> ts' [<-|/h3 [k1 k2]]; first by [].
  by split=> //; apply: sub_all k2 => c; rewrite mem_cat negb_or => /andP [].
- move=> [|i] [|j] c //= h hc; last exact: h4 hc.
  rewrite ltnS in h; have [_ k2] : table_ok (nth [::] tss j) /\ all (fun c => c \notin used ++ table_columns ts) (table_columns (nth [::] tss j)).
    by apply: h3; elim: (tss) (j) h => [|x l IH2] [|j'] //= h; [left|right; apply: IH2].
  by apply/negP => /(allP k2); rewrite mem_cat hc orbT.
Qed.

Theorem C35_simple_tables constants (p : lprog F unit) tr :
  performed inst (simple_floor_planner constants p) = Ok tr -> tables_accepted p.
Proof. by move=> /single_tables /apartP [h1 h2]; split=> // ts /h1 []. Qed.
Theorem C35_v1_tables order constants (p0 p : lprog F unit) tr :
  performed inst (v1_floor_planner order constants p0 p) = Ok tr -> tables_accepted p.
Proof.
rewrite /v1_floor_planner; case: (rbind _ _) => // -[shapes [regions m]] /v1_tables /apartP [h1 h2].
by split=> // ts /h1 [].
Qed.
End Tables.

(* ---------------------------------------------------------------- the contents *)
Section Contents.
Variable F : fieldType.
Implicit Types (ts : seq (tassign F)) (tr pre post : seq (aop F)).

(* no call writes to a fixed column *)
Definition leaves_alone (cs : seq nat) tr : Prop := List.Forall (fun o : aop F => match o with
  | AFixed c _ _ | AFill c _ _ => c \notin cs | _ => True end) tr.
(* the value the table gives to a cell: the last one assigned *)
Definition table_value ts (c row : nat) : option (value (assigned F)) :=
  foldl (fun w t => if (ta_column t == c) && (ta_offset t == row) then Some (ta_value t) else w) None ts.

Lemma written_cat u tr tr' c row : fixed_written u (tr ++ tr') c row =
  if fixed_written u tr' c row is Some v then Some v else fixed_written u tr c row.
Proof.
elim/last_ind: tr' => [|tr' o IH]; first by rewrite cats0.
by rewrite -rcons_cat !fixed_written_rcons IH; case: o => // *; case: (_ && _).
Qed.
Lemma written_alone u tr cs c row : leaves_alone cs tr -> c \in cs -> fixed_written u tr c row = None.
Proof.
move=> h hc; elim/last_ind: tr h => [//|tr o IH] h.
have [h1 h2] : leaves_alone cs tr /\ leaves_alone cs [:: o].
  by move: h; rewrite /leaves_alone -cats1 => /List.Forall_app.
rewrite fixed_written_rcons (IH h1); inversion h2; subst.
by case: o H1 {h h2} => // c' => [r v|r v] hn; case: (c' =P c) hn => // ->; rewrite hc.
Qed.
Lemma written_fills u from (f : nat -> value (assigned F)) cs c row :
  fixed_written u [seq AFill c from (f c) | c <- cs] c row =
  if (c \in cs) && (from <= row < u) then Some (f c) else None.
Proof.
elim/last_ind: cs => [//|cs c' IH]; rewrite map_rcons fixed_written_rcons IH mem_rcons inE eq_sym.
by case: (c =P c') => [->|_] //=; case: (from <= row < u); rewrite ?andbF.
Qed.
Lemma written_cells u ts c row :
  fixed_written u [seq AFixed (ta_column t) (ta_offset t) (ta_value t) | t <- ts] c row = table_value ts c row.
Proof.
elim/last_ind: ts => [//|ts t IH]; by rewrite map_rcons fixed_written_rcons IH /table_value foldl_rcons.
Qed.
Lemma table_value_has ts c row : isSome (table_value ts c row) = has (fun t => (ta_column t == c) && (ta_offset t == row)) ts.
Proof.
elim/last_ind: ts => [//|ts t IH]; rewrite /table_value foldl_rcons has_rcons -/(table_value ts c row) -IH.
by case: (_ && _).
Qed.
Lemma table_value0 ts c : row0_count ts c = 1 -> table_value ts c 0 = Some (table_default ts c).
Proof.
elim: ts => //= t ts IH; rewrite /row0_count /table_value /=; case: ifP => ht /=.
  move=> [h0]; have : ~~ has (fun t => (ta_column t == c) && (ta_offset t == 0)) ts by rewrite has_count h0.
  by elim: (ts) (ta_value t) => [//|t' l IH2] w /=; rewrite negb_or => /andP [/negbTE -> /IH2].
by move=> h; rewrite -IH.
Qed.

(* After the calls of a circuit, which contain those of an accepted table and no later write to its
   columns: the table's rows hold the values assigned (in the last assignment of each cell), every other
   usable row is a copy of row 0; so the tuples over the usable rows are those of the table. *)
Theorem C35_contents u pre ts post : table_ok ts -> leaves_alone (table_columns ts) post ->
  0 < table_length ts ->
  let written := fixed_written u (pre ++ table_calls ts ++ post) in
  (forall c row, c \in table_columns ts -> row < table_length ts ->
    written c row = table_value ts c row /\ isSome (table_value ts c row)) /\
  (forall c row, c \in table_columns ts -> table_length ts <= row < u -> written c row = table_value ts c 0) /\
  (forall row, row < u -> exists2 row', row' < table_length ts &
    forall c, c \in table_columns ts -> written c row = table_value ts c row').
Proof.
move=> [hc h0] hp hL written.
have key c row : c \in table_columns ts -> row < u \/ row < table_length ts ->
    written c row = if row < table_length ts then table_value ts c row else table_value ts c 0.
  move=> hcol hr; rewrite /written !written_cat (written_alone _ _ hp hcol) /table_calls.
  rewrite -cat1s written_cat -[AExit F :: _]cat1s !written_cat /= written_fills hcol /= written_cells.
  rewrite (table_value0 (h0 _ hcol)); case: (ltnP row (table_length ts)) => h /=.
    by have := table_value_has ts c row; rewrite hc // h; case: (table_value ts c row).
  by case: hr; rewrite ?ltnNge ?h // -ltnNge => ->.
split; [|split].
- by move=> c row hcol hr; rewrite key ?hr //; [rewrite table_value_has hc|right].
- by move=> c row hcol /andP [h1 h2]; rewrite key; [rewrite ltnNge h1|exact: hcol|left].
- move=> row hr; exists (if row < table_length ts then row else 0); first by case: ifP.
  by move=> c hcol; rewrite key; [case: ifP|exact: hcol|left].
Qed.

(* Key generation accepts the table only if at least one usable row is left after it: a table that
   fills the usable rows exactly is refused. *)
Theorem C35_needs_spare_row u n nf ns cols pre ts post a : u <= n -> ts <> [::] ->
  run_calls (keygen_op u) (pre ++ table_calls ts ++ post)
    (KAssembly (nseq nf (nseq n (ATrivial 0%R))) (assembly_new n cols) (nseq ns (nseq n false))) = Ok a ->
  table_length ts < u.
Proof.
move=> hu hne h; have ks := keygen_callsP hu h; case: ts hne h ks => [//|t ts] _ _ ks; set tt := t :: ts.
have [c hc] : exists c, c \in table_columns tt by exists (ta_column t); rewrite mem_rev mem_undup mem_rev mem_head.
have : List.In (AFill c (table_length tt) (table_default tt c)) (pre ++ table_calls tt ++ post).
  apply: (List.in_or_app pre _ _); right; apply: (List.in_or_app (table_calls tt) post _); left.
  rewrite /table_calls; right.
  apply: (List.in_or_app [seq AFixed (ta_column x) (ta_offset x) (ta_value x) | x <- tt] (AExit F :: _) _); right; right.
  by elim: (table_columns tt) hc => //= c' l IH; rewrite inE => /orP [/eqP ->|/IH]; [left|right].
by move=> /(ks_rows ks) /(_ isT) /=; rewrite andbT.
Qed.
End Contents.

(* ---------------------------------------------------------------- examples and limits *)
Section Examples.
Variables (F : fieldType) (inst : nat -> nat -> value F).
Local Definition cell (c off : nat) (x : F) : tassign F := TAssign c off (known (ATrivial x)).
Local Definition one (ts : seq (tassign F)) : lprog F unit := LTable ts (LRet tt).
Local Definition run (ts : seq (tassign F)) := performed inst (simple_floor_planner [::] (one ts)).

(* two tables of different lengths, next to the regions of ex_circuit *)
Definition ex_table : seq (tassign F) :=
  [:: cell 3 0 0%R; cell 3 1 1%R; cell 4 0 7%:R%R; cell 4 1 8%:R%R].
Example ex_table_accepted w : tables_accepted inst (ex_circuit w) /\ tables_of (levents inst 0 (ex_circuit w)) = [:: ex_table].
Proof. by split=> //; exact: C35_simple_tables (ex_simple inst w). Qed.
Example ex_table_ok : table_ok ex_table.
Proof.
have [h e] := ex_table_accepted unknown; have [h1 _] := h; apply: h1; rewrite e; by left.
Qed.
(* the hypotheses of C35_contents hold for the calls made for ex_circuit *)
Example ex_contents w : let tr := ex_calls inst w ex_place 0 1 false in
  (exists pre post, [/\ tr = pre ++ table_calls ex_table ++ post, leaves_alone (table_columns ex_table) post & 0 < size post]) /\
  [seq fixed_written 6 tr 4 r | r <- iota 0 6] =
    [seq Some (known (ATrivial x)) | x <- [:: 7%:R%R; 8%:R%R; 7%:R%R; 7%:R%R; 7%:R%R; 7%:R%R : F]].
Proof.
split=> //; exists (take 7 (ex_calls inst w ex_place 0 1 false)), (drop 15 (ex_calls inst w ex_place 0 1 false)).
by split=> //; rewrite /leaves_alone; repeat constructor.
Qed.
(* two tables in one circuit, apart; the second again on a column of the first is refused *)
Example ex_two : exists tr, performed inst (simple_floor_planner [::]
  (LTable [:: cell 0 0 1%R; cell 0 1 2%:R%R] (LTable [:: cell 1 0 3%:R%R] (LRet tt)))) = Ok tr.
Proof. by eexists. Qed.
Example ex_reused : performed inst (simple_floor_planner [::]
  (LTable [:: cell 2 0 1%R; cell 2 1 2%:R%R] (LTable [:: cell 2 0 3%:R%R] (LRet tt)))) = Err ETable.
Proof. by []. Qed.
(* what else is refused: a hole, an uneven table, row 0 twice *)
Example ex_hole : run [:: cell 0 0 1%R; cell 0 2 3%:R%R] = Err ETable. Proof. by []. Qed.
Example ex_uneven : run [:: cell 0 0 1%R; cell 0 1 3%:R%R; cell 1 0 3%:R%R] = Err ETable. Proof. by []. Qed.
Example ex_row0_twice : run [:: cell 0 0 1%R; cell 0 0 1%R] = Err ETable. Proof. by []. Qed.

(* "Errors if the table cell has already been assigned to" (circuit/table_layouter.rs:22) holds of
   row 0 only: any other cell can be assigned twice, also with different values; the last one counts. *)
Theorem C35_reassign_refuted (x y : F) : exists2 tr, run [:: cell 0 0 0%R; cell 0 1 x; cell 0 1 y] = Ok tr &
  fixed_written 4 tr 0 1 = Some (known (ATrivial y)).
Proof. by eexists. Qed.
End Examples.

Print Assumptions C35_simple_tables.
Print Assumptions C35_v1_tables.
Print Assumptions C35_contents.
Print Assumptions C35_needs_spare_row.
Print Assumptions C35_reassign_refuted.
