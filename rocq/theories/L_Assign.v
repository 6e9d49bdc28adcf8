(* Lemmas for C35 and C36: runs of a synthesis, and the state of the back-ends after a sequence of
   calls. *)
Set Warnings "-notation-overridden,-ambiguous-paths".
From mathcomp Require Import all_ssreflect all_algebra.
From Verif Require Import Util M_Env M_Assigned P_Assigned M_Circuit M_Selectors L_Selectors M_Copy L_Copy M_Value
  M_Plonk M_Assign M_Mock S_Floor S_Assign.
Import GRing.Theory.
Set Implicit Arguments.
Unset Strict Implicit.

Lemma set2P (T : Type) (v : seq (seq T)) w h c row x v' : rectangle w h v -> set2 v (c, row) x = Some v' ->
  [/\ c < w, row < h, rectangle w h v' &
    forall d i j, nth d (nth [::] v' i) j = if (i == c) && (j == row) then x else nth d (nth [::] v i) j].
Proof.
move=> [sv hv]; rewrite /set2 /= sv; case: ifP => // hc; rewrite hv //; case: ifP => // hr [<-].
have hs : c < size v by rewrite sv.
have hr' : row < size (nth [::] v c) by rewrite hv.
split=> //.
- split; first by rewrite size_upd.
  by move=> i hi; rewrite nth_upd //; case: eqP => [_|_]; rewrite ?size_upd ?hv.
- move=> d i j; rewrite nth_upd //; case: eqP => [->|//] /=; exact: nth_upd.
Qed.
Lemma set2_ok (T : Type) (v : seq (seq T)) w h c row x : rectangle w h v -> c < w -> row < h ->
  exists v', set2 v (c, row) x = Some v'.
Proof. by move=> [sv hv] hc hr; rewrite /set2 /= sv hc hv // hr; eexists. Qed.
Lemma put2P (T : Type) (v : seq (seq T)) w h c row x v' : rectangle w h v -> put2 v c row x = Ok v' ->
  [/\ c < w, row < h, rectangle w h v' &
    forall d i j, nth d (nth [::] v' i) j = if (i == c) && (j == row) then x else nth d (nth [::] v i) j].
Proof.
by move=> hv; rewrite /put2 /=; case e: (set2 _ _ _) => [v2|] //= [<-]; apply: (set2P hv e).
Qed.
Lemma put2_ok (T : Type) (v : seq (seq T)) w h c row x : rectangle w h v -> c < w -> row < h ->
  exists v', put2 v c row x = Ok v'.
Proof. by move=> hv hc hr; have [v' e] := set2_ok x hv hc hr; rewrite /put2 e; exists v'. Qed.
Lemma rectangle_nseq (T : Type) w h (x : T) : rectangle w h (nseq w (nseq h x)).
Proof. by split=> [|c hc]; rewrite ?size_nseq // nth_nseq hc size_nseq. Qed.

Lemma fill_rowsP (T : Type) u from_row (x : T) col : u <= size col ->
  exists2 col', fill_rows u from_row x col = Some col' &
    size col' = size col /\ forall d j, nth d col' j = if (from_row <= j < u) then x else nth d col j.
Proof.
rewrite /fill_rows => hu.
have hin j : (j \in drop from_row (iota 0 u)) = (from_row <= j < u).
  case: (leqP u from_row) => h.
    rewrite drop_oversize ?size_iota //; apply/esym/negbTE/negP => /andP [h1 h2].
    by move: (leq_trans h2 h); rewrite ltnNge h1.
  by rewrite drop_iota mem_iota add0n subnKC // ltnW.
have: all (fun j => j < size col) (drop from_row (iota 0 u)).
  by apply/allP => j; rewrite hin => /andP [_ h]; apply: leq_trans h hu.
suff H (l : seq nat) : all (fun j => j < size col) l -> exists2 col',
    foldl (fun col row => obind (fun col => if row < size col then Some (upd col row x) else None) col)
      (Some col) l = Some col' &
    size col' = size col /\ forall d j, nth d col' j = if j \in l then x else nth d col j.
  by move=> /H [col' -> [h1 h2]]; exists col' => //; split=> // d j; rewrite h2 hin.
elim: l col {hu} => [|i l IH] col /=; first by exists col.
move=> /andP [hi hl]; rewrite hi; have [|col' -> [h1 h2]] := IH (upd col i x); first by rewrite size_upd.
exists col' => //; rewrite h1 size_upd //; split=> // d j; rewrite h2 nth_upd // inE.
by case: (j \in l); rewrite ?orbT //; case: (j == i).
Qed.

Section Runs.
Variable F : fieldType.
Implicit Types (tr : seq (aop F)) (p : synth F).

Lemma run_calls_rcons S (op : aop F -> S -> res S) tr o s :
  run_calls op (rcons tr o) s = rbind (run_calls op tr s) (op o).
Proof.
elim: tr s => [|o' tr IH] s /=; first by case: (op o s).
by case: (op o' s) => //= s'; rewrite IH.
Qed.
Lemma run_calls_cat S (op : aop F -> S -> res S) tr tr' s :
  run_calls op (tr ++ tr') s = rbind (run_calls op tr s) (run_calls op tr').
Proof. by elim: tr s => [|o tr IH] s //=; case: (op o s). Qed.

(* a run that succeeds makes the calls of the synthesis, and answers its queries *)
Lemma run_performed S (op : aop F -> S -> res S) query inst p s s' :
  (forall c r s v, query c r s = Ok v -> inst c r = v) -> run_synth op query p s = Ok s' ->
  exists2 tr, performed inst p = Ok tr & run_calls op tr s = Ok s'.
Proof.
move=> hq; elim: p s => [|e||o k IH|c r k IH] s //=.
- by move=> [<-]; exists [::].
- case e: (op o s) => [s1||] //= /IH [tr -> h]; exists (o :: tr) => //=.
  by rewrite e.
- by case e: (query c r s) => [v||] //= /IH [tr]; rewrite (hq _ _ _ _ e) => -> h; exists tr.
Qed.
End Runs.

Lemma run_copies_rcons a calls c : run_copies a (rcons calls c) =
  ((do_copy (run_copies a calls).1 c).1, rcons (run_copies a calls).2 (do_copy (run_copies a calls).1 c).2).
Proof.
elim: calls a => [|c' calls IH] a /=; first by case: (do_copy a c).
case: (do_copy a c') => a1 r1; rewrite IH.
by case: (run_copies a1 calls).
Qed.

Section States.
Variable F : fieldType.
Implicit Types (tr : seq (aop F)).


Lemma v_assignP (T : Type) (v : value T) x : v_assign v = Ok x -> v = known x.
Proof. by case: v => -[y|] //= [->]. Qed.
Lemma v_evaluateP (v : value (assigned F)) x : v_evaluate v = known x -> exists2 y, v = known y & x = a_evaluate y.
Proof. by case: v => -[y|] //= [<-]; exists y. Qed.

Section Size.
Variables (u n nf na ns : nat) (cols : seq column).
Hypothesis hu : u <= n.
Local Notation copies_done := (@S_Assign.copies_done F n cols).
Local Notation kstate := (S_Assign.kstate u n nf ns cols).
Local Notation wstate := (S_Assign.wstate u n na).
Local Notation mstate := (S_Assign.mstate u n nf na ns cols).
Local Notation blank_advice := (S_Assign.blank_advice F u).



Lemma copies_rcons tr o : copies (rcons tr o) =
  if o is ACopy c row c' row' then rcons (copies tr) (CopyCall c row c' row') else copies tr.
Proof. by rewrite /copies -cats1 pmap_cat; case: o => *; rewrite /= ?cats0 ?cats1. Qed.
Lemma fixed_written_rcons tr o c row : fixed_written u (rcons tr o) c row =
  match o with
  | AFixed c' row' v => if (c' == c) && (row' == row) then Some v else fixed_written u tr c row
  | AFill c' from v => if (c' == c) && (from <= row < u) then Some v else fixed_written u tr c row
  | _ => fixed_written u tr c row end.
Proof. by rewrite /fixed_written foldl_rcons. Qed.
Lemma advice_written_rcons tr o c row : advice_written (rcons tr o) c row =
  if o is AAdvice c' row' v then if (c' == c) && (row' == row) then Some v else advice_written tr c row
  else advice_written tr c row.
Proof. by rewrite /advice_written foldl_rcons. Qed.
Lemma selected_rcons tr o s row : selected (rcons tr o) s row =
  (if o is AEnable s' row' then (s' == s) && (row' == row) else false) || selected tr s row.
Proof. by rewrite /selected has_rcons. Qed.
Lemma In_rcons (T : Type) (x y : T) l : List.In x (rcons l y) -> x = y \/ List.In x l.
Proof. by elim: l => [|z l IH] /= [->|h]; auto; case: (IH h); auto. Qed.

Lemma copies_done_rcons tr p o : copies_done tr p -> (if o is ACopy _ _ _ _ then False else True) ->
  copies_done (rcons tr o) p.
Proof. by move=> [h1 h2] ho; split; rewrite copies_rcons; case: o ho. Qed.
Lemma copies_done_copy tr p c row c' row' p' : copies_done tr p -> copy p c row c' row' = (p', Ok tt) ->
  copies_done (rcons tr (ACopy F c row c' row')) p'.
Proof.
move=> [h1 h2] hc; have e : do_copy p (CopyCall c row c' row') = (p', Ok tt) by [].
split; rewrite copies_rcons run_copies_rcons -h1 e //= size_rcons h2.
by elim: (size _) => //= k ->.
Qed.

Lemma keygen_callsP tr a :
  run_calls (keygen_op u) tr (KAssembly (nseq nf (nseq n (ATrivial 0%R))) (assembly_new n cols) (nseq ns (nseq n false)))
    = Ok a -> kstate tr a.
Proof.
elim/last_ind: tr a => [|tr o IH] a.
  move=> [<-]; split=> //=; try exact: rectangle_nseq.
  - by move=> c row hc hr; rewrite /holds_written /= !nth_nseq hc nth_nseq hr.
  - by move=> s row hs hr; rewrite !nth_nseq hs nth_nseq hr.
rewrite run_calls_rcons; case e: (run_calls _ _ _) => [a1||] //=; have [r1 r2 f1 s1 p1 w1] := IH _ e.
have rows o2 : all (fun r => r < u) (rows_touched o) \/ is_advice o -> List.In o2 (rcons tr o) -> ~~ is_advice o2 ->
    all (fun r => r < u) (rows_touched o2).
  by move=> ho hin ha; have [e2|h] := In_rcons hin; [subst o2; case: ho => // ho; rewrite ho in ha|exact: w1 ha].
case: o rows => [||s row|c row v|c row v|c row c' row'|c from v] rows /=.
- by move=> [<-]; split=> //; [move=> *; rewrite fixed_written_rcons; exact: f1|
    move=> *; rewrite selected_rcons; exact: s1|exact: copies_done_rcons|move=> o2 ho; apply: rows ho; left].
- by move=> [<-]; split=> //; [move=> *; rewrite fixed_written_rcons; exact: f1|
    move=> *; rewrite selected_rcons; exact: s1|exact: copies_done_rcons|move=> o2 ho; apply: rows ho; left].
- case: ltnP => //= hr; case es: (set2 _ _ _) => [sels|] //= [<-]; have [g1 g2 g3 g4] := set2P r2 es; split=> //=.
  + by move=> *; rewrite fixed_written_rcons; exact: f1.
  + by move=> s' row' h1 h2; rewrite g4 selected_rcons s1 // ![_ == s']eq_sym ![_ == row']eq_sym; case: (_ && _).
  + exact: copies_done_rcons.
  + by move=> o2 ho; apply: rows ho; left; rewrite /= hr.
- by move=> [<-]; split=> //; [move=> *; rewrite fixed_written_rcons; exact: f1|
    move=> *; rewrite selected_rcons; exact: s1|exact: copies_done_rcons|move=> o2 ho; apply: rows ho; right].
- case: ltnP => //= hr; case ev: (v_assign v) => [x||] //=; case ep: (put2 _ _ _ _) => [f||] //= [<-].
  have [g1 g2 g3 g4] := put2P r1 ep; split=> //=.
  + move=> c' row' h1 h2; rewrite fixed_written_rcons g4 ![_ == c']eq_sym ![_ == row']eq_sym.
    by case: (_ && _); [exact: v_assignP|exact: f1].
  + by move=> *; rewrite selected_rcons; exact: s1.
  + exact: copies_done_rcons.
  + by move=> o2 ho; apply: rows ho; left; rewrite /= hr.
- case: ltnP => //= hr; case: ltnP => //= hr'; case ec: (copy _ _ _ _ _) => [p' [[]||]] //= [<-]; split=> //=.
  + by move=> *; rewrite fixed_written_rcons; exact: f1.
  + by move=> *; rewrite selected_rcons; exact: s1.
  + exact: copies_done_copy p1 ec.
  + by move=> o2 ho; apply: rows ho; left; rewrite /= hr hr'.
- case: ltnP => //= hr; case eg: (get _ _) => [col|] //=; case ev: (v_assign v) => [x||] //=.
  have [hc ec] := get_some eg; have [sf hf] := r1; rewrite sf in hc.
  have ecol : nth [::] (ka_fixed a1) c = col by rewrite (set_nth_default col) ?sf.
  have hcol : u <= size col by rewrite -ecol hf.
  have [col' -> [h1 h2]] /= := @fill_rowsP _ u from x col hcol; move=> [<-]; split=> //=.
  + split; first by rewrite size_upd ?sf.
    by move=> i hi; rewrite nth_upd ?sf //; case: eqP => [ei|_]; rewrite ?h1 -?ecol hf.
  + move=> c' row' k1 k2; rewrite fixed_written_rcons nth_upd ?sf // [c' == c]eq_sym.
    case: eqP => [ei|_] /=; last exact: f1.
    by rewrite h2; case: ifP => _; [exact: v_assignP|rewrite -ecol ei; exact: f1].
  + by move=> *; rewrite selected_rcons; exact: s1.
  + exact: copies_done_rcons.
  + by move=> o2 ho; apply: rows ho; left; rewrite /= hr.
Qed.


Lemma witness_callsP tr a : run_calls (witness_op u) tr (nseq na (nseq n (ATrivial 0%R))) = Ok a -> wstate tr a.
Proof.
elim/last_ind: tr a => [|tr o IH] a.
  move=> [<-]; split=> //=; try exact: rectangle_nseq.
  by move=> c row hc hr; rewrite /holds_written /= !nth_nseq hc nth_nseq hr.
rewrite run_calls_rcons; case e: (run_calls _ _ _) => [a1||] //=; have [r1 f1 w1] := IH _ e.
have same : ~~ is_advice o -> a1 = a -> wstate (rcons tr o) a.
  move=> ho <-; split=> //.
  - by move=> c row hc hr; rewrite advice_written_rcons; case: o ho => //= *; exact: f1.
  - by move=> o2 hin ha; have [e2|h] := In_rcons hin; [rewrite e2 (negbTE ho) in ha|exact: w1].
case: o same => [||s row|c row v|c row v|c row c' row'|c from v] same /=; try by move=> [?]; exact: same.
case: ltnP => //= hr; case ev: (v_assign v) => [x||] //= ep; have [g1 g2 g3 g4] := put2P r1 ep; split=> //=.
- move=> c' row' h1 h2; rewrite advice_written_rcons g4 ![_ == c']eq_sym ![_ == row']eq_sym.
  by case: (_ && _); [exact: v_assignP|exact: f1].
- by move=> o2 hin ha; have [->|h] := In_rcons hin; [rewrite /= hr|exact: w1].
Qed.

Lemma mock_fixedP c row v s s' : rectangle nf n (mk_fixed s) -> mock_fixed u c row v s = Ok s' ->
  [/\ row < u /\ c < nf, rectangle nf n (mk_fixed s'), exists2 y, v = known y &
    forall i j, nth (CUnassigned F) (nth [::] (mk_fixed s') i) j =
      if (i == c) && (j == row) then CAssigned (a_evaluate y) else nth (CUnassigned F) (nth [::] (mk_fixed s) i) j,
    mk_advice s' = mk_advice s & mk_selectors s' = mk_selectors s /\ mk_perm s' = mk_perm s].
Proof.
move=> hr; rewrite /mock_fixed; case: ltnP => //= hrow.
case ev: (v_assign (v_evaluate v)) => [x||] //=; case ep: (put2 _ _ _ _) => [f||] //= [<-].
have [g1 g2 g3 g4] := put2P hr ep; split=> //=.
by have [y e1 e2] := v_evaluateP (v_assignP ev); exists y => // i j; rewrite g4 e2.
Qed.
Lemma mock_fillP c rows v s s' : rectangle nf n (mk_fixed s) -> mock_fill u c rows v s = Ok s' ->
  [/\ rows = [::] \/ c < nf, rectangle nf n (mk_fixed s'), rows = [::] \/ exists y, v = known y,
    forall y, v = known y -> forall i j, nth (CUnassigned F) (nth [::] (mk_fixed s') i) j =
      if (i == c) && (j \in rows) then CAssigned (a_evaluate y) else nth (CUnassigned F) (nth [::] (mk_fixed s) i) j &
    [/\ mk_advice s' = mk_advice s, mk_selectors s' = mk_selectors s & mk_perm s' = mk_perm s]].
Proof.
elim: rows s => [|row rows IH] s hr /=.
  by move=> [<-]; split=> //; [left|left|move=> y _ i j; rewrite andbF].
case e: (mock_fixed _ _ _ _ _) => [s1||] //= h.
have [[_ hc] g2 [y ey g3] g4 [g5 g6]] := mock_fixedP hr e.
have [_ k2 _ k4 [k5 k6 k7]] := IH s1 g2 h; split=> //; try by right; [].
- by right; exists y.
- move=> y' ey' i j; rewrite (k4 y') // g3 inE; have -> : y' = y by move: ey'; rewrite ey => -[].
  by case: (i == c) => //=; case: (j \in rows); rewrite ?orbT ?orbF.
- by rewrite k5 k6 k7 g4 g5 g6.
Qed.


Lemma mock_callsP tr s :
  run_calls (mock_op u) tr (Mock [::] None (nseq nf (nseq n (CUnassigned F)))
    (nseq na (nseq u (CUnassigned F) ++ [seq CPoison F i | i <- iota u (n - u)]))
    (nseq ns (nseq n false)) (assembly_new n cols)) = Ok s -> mstate tr s.
Proof.
elim/last_ind: tr s => [|tr o IH] s.
  move=> [<-]; split=> //=; try exact: rectangle_nseq.
  - split=> [|c hc]; rewrite ?size_nseq // nth_nseq hc size_cat size_nseq size_map size_iota subnKC //.
  - by move=> c row hc hr; rewrite /holds_cell /= !nth_nseq hc nth_nseq hr.
  - move=> c row hc hr; rewrite /holds_cell /= !nth_nseq hc nth_cat size_nseq /blank_advice.
    case: ltnP => h; first by rewrite nth_nseq h.
    have h2 : row - u < n - u by rewrite ltn_sub2r // (leq_trans _ hr).
    by rewrite (nth_map 0) ?size_iota // nth_iota // subnKC.
  - by move=> q row hq hr; rewrite !nth_nseq hq nth_nseq hr.
rewrite run_calls_rcons; case e: (run_calls _ _ _) => [s1||] //=; have [r1 r2 r3 f1 a1 q1 p1 w1] := IH _ e.
have rows o2 : all (fun r => r < u) (rows_touched o) -> List.In o2 (rcons tr o) -> 
    all (fun r => r < u) (rows_touched o2).
  by move=> ho hin; have [->|h] := In_rcons hin; [|exact: w1].
have same s2 : mk_fixed s2 = mk_fixed s1 -> mk_advice s2 = mk_advice s1 -> mk_selectors s2 = mk_selectors s1 ->
    mk_perm s2 = mk_perm s1 -> (o = AEnter F \/ o = AExit F) -> mstate (rcons tr o) s2.
  move=> e1 e2 e3 e4 ho; split; rewrite ?e1 ?e2 ?e3 ?e4 //.
  - by move=> *; rewrite fixed_written_rcons; case: ho => ->; apply: f1.
  - by move=> *; rewrite advice_written_rcons; case: ho => ->; apply: a1.
  - by move=> *; rewrite selected_rcons; case: ho => ->; apply: q1.
  - by apply: copies_done_rcons => //; case: ho => ->.
  - by move=> o2 hin; apply: rows hin; case: ho => ->.
case: o rows same => [||q row|c row v|c row v|c row c' row'|c from v] rows same /=.
- by case: (mk_current s1) => [//|] /= [<-]; apply: same => //; left.
- by case: (mk_current s1) => [r|//] /= [<-]; apply: same => //; right.
- case: ltnP => //= hr; case: (mk_current s1) => [r|//] /=.
  case es: (set2 _ _ _) => [sels|] //= [<-]; have [g1 g2 g3 g4] := set2P r3 es; split=> //=.
  + by move=> *; rewrite fixed_written_rcons; exact: f1.
  + by move=> *; rewrite advice_written_rcons; exact: a1.
  + by move=> q' row' h1 h2; rewrite g4 selected_rcons q1 // ![_ == q']eq_sym ![_ == row']eq_sym; case: (_ && _).
  + exact: copies_done_rcons.
  + by move=> o2 ho; apply: rows ho; rewrite /= hr.
- case: ltnP => //= hr; case ev: (v_assign (v_evaluate v)) => [x||] //=; case ep: (put2 _ _ _ _) => [f||] //= [<-].
  have [g1 g2 g3 g4] := put2P r2 ep; split=> //=.
  + by move=> *; rewrite fixed_written_rcons; exact: f1.
  + move=> c' row' h1 h2; rewrite advice_written_rcons g4 ![_ == c']eq_sym ![_ == row']eq_sym.
    case: (_ && _); last exact: a1.
    by have [y e1 e2] := v_evaluateP (v_assignP ev); exists y; rewrite ?e2.
  + by move=> *; rewrite selected_rcons; exact: q1.
  + exact: copies_done_rcons.
  + by move=> o2 ho; apply: rows ho; rewrite /= hr.
- move=> h; have [[hr hc] g1 [y ey g2] g3 [g4 g5]] := mock_fixedP r1 h; split; rewrite ?g3 ?g4 ?g5 //.
  + move=> c' row' h1 h2; rewrite fixed_written_rcons g2 ![_ == c']eq_sym ![_ == row']eq_sym.
    by case: (_ && _); [exists y|exact: f1].
  + by move=> *; rewrite advice_written_rcons; exact: a1.
  + by move=> *; rewrite selected_rcons; exact: q1.
  + exact: copies_done_rcons.
  + by move=> o2 ho; apply: rows ho; rewrite /= hr.
- case: ltnP => //= hr; case: ltnP => //= hr'; case ec: (copy _ _ _ _ _) => [p' [[]||]] //= [<-]; split=> //=.
  + by move=> *; rewrite fixed_written_rcons; exact: f1.
  + by move=> *; rewrite advice_written_rcons; exact: a1.
  + by move=> *; rewrite selected_rcons; exact: q1.
  + exact: copies_done_copy p1 ec.
  + by move=> o2 ho; apply: rows ho; rewrite /= hr hr'.
- case: ltnP => //= hr h; have [g1 g2 g3 g4 [g5 g6 g7]] := mock_fillP r1 h.
  have ne : drop from (iota 0 u) <> [::] by move/(f_equal size); rewrite size_drop size_iota /= => /eqP; rewrite subn_eq0 leqNgt hr.
  have [y ey] : exists y, v = known y by case: g3.
  have hin j : (j \in drop from (iota 0 u)) = (from <= j < u) by rewrite drop_iota mem_iota add0n subnKC // ltnW.
  split; rewrite ?g5 ?g6 ?g7 //.
  + move=> c' row' h1 h2; rewrite fixed_written_rcons (g4 y) // hin [_ == c']eq_sym.
    by case: (_ && _); [exists y|exact: f1].
  + by move=> *; rewrite advice_written_rcons; exact: a1.
  + by move=> *; rewrite selected_rcons; exact: q1.
  + exact: copies_done_rcons.
  + by move=> o2 ho; apply: rows ho; rewrite /= hr.
Qed.
End Size.
End States.
