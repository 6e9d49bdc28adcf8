(* C33, C34: the floor planners.  Regions never overlap, every call made in a region is made on
   the back-end at the same offset from the region's start, constants go to cells of their own
   and are copied to where they are wanted; so a table which agrees with the calls made on the
   back-end respects every region, which is what the theorems about gadgets (C41-C50) assume. *)
Set Warnings "-notation-overridden,-ambiguous-paths".
From mathcomp Require Import all_ssreflect all_algebra.
From Verif Require Import Util M_Env M_Assigned P_Assigned M_Circuit S_Circuit M_Selectors M_Copy M_Value M_Region S_Region
  M_Layout S_Layout M_Assign M_Floor S_Floor L_Floor L_V1.
Import GRing.Theory.
Set Implicit Arguments.
Unset Strict Implicit.

Section Simple.
Variables (F : fieldType) (inst : nat -> nat -> value F).

Lemma get_nth (s : seq nat) i x : get s i = Some x -> nth 0 s i = x.
Proof.
rewrite /get => h; have hi : i < size s by rewrite ltnNge; apply/negP => k; rewrite drop_oversize in h.
by move: h; rewrite (drop_nth 0 hi) => -[].
Qed.
Lemma starts_at_nth regions : starts_at (nth 0 regions) regions.
Proof. by move=> i s /get_nth. Qed.

(* SimpleFloorPlanner, for every circuit, whatever it asks for *)
Theorem C33_simple_floor_planner constants (p : lprog F unit) tr :
  performed inst (simple_floor_planner constants p) = Ok tr ->
  measured_alike inst 0 p ->
  exists place cpos,
    [/\ tr = plan_calls_inline place cpos 0 (levents inst 0 p),
      no_overlap place (lregions inst 0 p) &
      constants_apart place cpos constants (size (all_wanted (levents inst 0 p))) (lregions inst 0 p)].
Proof.
move=> h hm; have [a [st' [tr2 [l [rows [[_ /= [etr2]] _ [hs hn] htr hg]]]]]] := single_layoutP h hm.
pose cpos i := (head 0 constants, nth 0 rows i).
have hp := @starts_at_nth (sg_regions st').
exists (nth 0 (sg_regions st')), cpos; have [g1 g2 g3 g4 g5] := hg _ hp; split=> //.
  by rewrite (htr _ cpos 0 hp) // -etr2 cats0.
rewrite -hs; split; last split.
- rewrite /cpos => i; case: (constants) hn => [|c cs] hn hi /=; last by rewrite mem_head.
  by rewrite hn in hi.
- move=> i j hi hj [] /eqP; rewrite nth_uniq // => [/eqP //|].
  exact: (@sorted_uniq _ ltn ltn_trans ltnn).
- by move=> i r ops hi; apply: g5; rewrite mem_nth.
Qed.

(* V1: the circuit without witnesses is measured, the circuit is assigned.  The measured regions
   use every column and offset the assigned ones use. *)
Theorem C34_v1_floor_planner order constants (p0 p : lprog F unit) tr :
  performed inst (v1_floor_planner order constants p0 p) = Ok tr ->
  (forall r ops, List.In (r, ops) (lregions inst 0 p) -> exists2 ops0,
     List.In (r, ops0) (lregions (@measuring F) 0 p0) &
     {subset pmap (@rop_uses F) ops <= pmap (@rop_uses F) ops0}) ->
  (forall s, perm_eq (order s) s) -> uniq constants ->
  exists place cpos,
    [/\ tr = plan_calls_at_end place cpos (levents inst 0 p),
      no_overlap place (lregions inst 0 p) &
      constants_apart place cpos constants (size (all_wanted (levents inst 0 p))) (lregions inst 0 p)].
Proof.
rewrite /v1_floor_planner /measure => h hm ho hu; move: h.
case: (lreturns _ 0 p0) => //= _; set shapes := [seq shape_of c.2 | c <- _].
have hok : all shape_ok shapes by apply/allP => s /mapP_In [c _ ->]; apply: shape_of_ok.
have [regions [m [-> hsz hpl hz hg]]] := slot_in_biggestP (ho _) hok; rewrite /=.
move=> /v1_layoutP [a [rl [tr2 [_ h2 htr]]]]; move: h2; rewrite cat0s.
set pos := constant_positions _ _ _; set ws := all_wanted _; case: ltnP => // hpos hc.
have hp := @starts_at_nth regions.
have [hmok hmem] := hpl; have [pu pf] := @constant_positionsP constants m (first_unassigned_row shapes m) hmok hu.
have shape_at r ops : List.In (r, ops) (lregions inst 0 p) ->
    [/\ r < size shapes, {subset columns_of ops <= sh_columns (nth (Shape [::] 0) shapes r)} &
      height ops <= sh_rows (nth (Shape [::] 0) shapes r)].
  move=> /hm [ops0 /lregions_nth [i hi [-> hn]] /subset_shape [s1 s2]]; rewrite add0n size_map.
  by rewrite /shapes (nth_map (0, [::])) // hn.
pose x0 : nat * shape := (0, Shape [::] 0).
have napart r r' : r < size shapes -> r' < size shapes -> r <> r' ->
    ~ collide (nth 0 regions r, nth x0.2 shapes r) (nth 0 regions r', nth x0.2 shapes r').
  move=> hr hr' ne.
  set zs := zip (iota 0 (size shapes)) shapes in hg.
  have inq i : i < size shapes -> (i, nth x0.2 shapes i) \in rev (order zs).
    move=> hi; rewrite mem_rev (perm_mem (ho zs)).
    have -> : (i, nth x0.2 shapes i) = nth x0 zs i by rewrite nth_zip ?size_iota // nth_iota.
    by rewrite mem_nth // size_zip size_iota minnn.
  have /(nthP x0) [k hk ek] := inq r hr; have /(nthP x0) [k' hk' ek'] := inq r' hr'.
  have := @greedy_apart _ k k' x0 hg; rewrite size_map !(nth_map x0) // ek ek' /=; apply=> //.
  by apply/eqP => e; move: ek; rewrite e ek' => -[er _]; apply: ne.
exists (nth 0 regions), (nth (0, 0) pos); split.
- rewrite (htr _ hp) /plan_calls_at_end; congr (_ ++ _).
  exact: (v1_constantsP hpos hc (cpos := nth (0, 0) pos) (i := 0) hp).
- move=> r ops r' ops' c h1 h2 ne c1 c2.
  have [r1 r2 r3] := shape_at _ _ h1; have [s1 s2 s3] := shape_at _ _ h2.
  have oks i : i < size shapes -> shape_ok (nth x0.2 shapes i) by move=> hi; apply: (allP hok); rewrite mem_nth.
  have [b|b] := apart_rows (napart r r' r1 s1 ne) (r2 _ c1) (s2 _ c2) (oks _ r1) (oks _ s1).
  + by left; apply: leq_trans b; rewrite leq_add2l.
  + by right; apply: leq_trans b; rewrite leq_add2l.
- split; last split.
  + by move=> i hi; have [] := pf (nth (0, 0) pos i) _; rewrite ?mem_nth // (leq_trans hi).
  + by move=> i j hi hj /eqP; rewrite nth_uniq ?(leq_trans hi) ?(leq_trans hj) // => /eqP.
  move=> i r ops hi h1 hc1; have [r1 r2 r3] := shape_at _ _ h1.
  have [_ hf] : (nth (0, 0) pos i).1 \in constants /\ fits (m (RCColumn (Fixed, (nth (0, 0) pos i).1))) (nth (0, 0) pos i).2 1.
    by apply: pf; rewrite mem_nth // (leq_trans hi).
  have hin : (nth 0 regions r, sh_rows (nth x0.2 shapes r)) \in m (RCColumn (Fixed, (nth (0, 0) pos i).1)).
    apply/hmem; exists (nth 0 regions r, nth x0.2 shapes r); last by split=> //; apply: r2.
    by rewrite -nth_zip // mem_nth // size_zip hsz minnn.
  move/(allP hf): hin => /= /orP []; first by rewrite addn1; left.
  by move=> k; right; apply: leq_trans k; rewrite leq_add2l.
Qed.

(* The strategy itself, for every list of shapes: it never panics, gives every region a start row in
   the order of the regions, and places them, in the order of [order] reversed, each at the least row
   where it collides with none of the regions placed before it. *)
Theorem C34_first_fit order shapes : all shape_ok shapes -> (forall s, perm_eq (order s) s) ->
  let queue := rev (order (zip (iota 0 (size shapes)) shapes)) in
  exists starts m, [/\ slot_in_biggest_advice_first order shapes = Ok (starts, m),
    size starts = size shapes,
    forall i j s, i < size shapes -> j < size shapes -> i <> j ->
      ~ collide (nth 0 starts i, nth s shapes i) (nth 0 starts j, nth s shapes j) &
    forall k q row, k < size queue ->
      (forall k', k' < k -> ~ collide (row, (nth q queue k).2)
         (nth 0 starts (nth q queue k').1, (nth q queue k').2)) ->
      nth 0 starts (nth q queue k).1 <= row].
Proof.
move=> hok ho queue; have [regions [m [h1 hsz hpl hz hg]]] := slot_in_biggestP (ho _) hok.
exists regions, m; split=> // [i j s hi hj ne|k q row hk hc].
  pose x0 : nat * shape := (0, s); set zs := zip (iota 0 (size shapes)) shapes in queue hg.
  have inq n : n < size shapes -> (n, nth s shapes n) \in queue.
    move=> hn; rewrite mem_rev (perm_mem (ho zs)).
    have -> : (n, nth s shapes n) = nth x0 zs n by rewrite nth_zip ?size_iota // nth_iota.
    by rewrite mem_nth // size_zip size_iota minnn.
  have /(nthP x0) [k hk ek] := inq i hi; have /(nthP x0) [k' hk' ek'] := inq j hj.
  have := @greedy_apart _ k k' x0 hg; rewrite size_map !(nth_map x0) // -/queue ek ek' /=; apply=> //.
  by apply/eqP => e; move: ek; rewrite e ek' => -[er _]; apply: ne.
have := hg k (0, q.2); rewrite size_map -/queue => /(_ hk) [_].
rewrite (nth_map q) // cat0s; apply=> y; rewrite -map_take => /mapP [z /(nthP q) [k' ]].
rewrite size_take hk => hk' <- ->; rewrite nth_take //; exact: hc.
Qed.
(* the default order is by decreasing advice area, and is a permutation *)
Theorem C34_default_order l : perm_eq (by_advice_area l) l /\
  sorted (fun x y : nat * shape => advice_area y.2 <= advice_area x.2) (rev (by_advice_area l)).
Proof.
rewrite rev_sorted; split; first by rewrite perm_sort.
by apply: sort_sorted => x y; apply: leq_total.
Qed.

(* ---------------------------------------------------------------- what a plan gives the gadgets *)

Lemma lregions_levents A (p : lprog F A) r0 r ops :
  List.In (r, ops) (lregions inst r0 p) <-> List.In (VRegion r ops) (levents inst r0 p).
Proof.
elim: p r0 => //= [C body q IH|ts q IH|c col row q IH] r0.
- split=> -[].
  + by move=> [-> ->]; left.
  + by case: (returns _ _) => // d /IH; right.
  + by move=> [-> ->]; left.
  + by case: (returns _ _) => // d /IH; right.
- by split=> [/IH|[//|/IH]]; auto.
- by split=> [/IH|[//|/IH]]; auto.
Qed.
Lemma linstances_levents A (p : lprog F A) r0 c col row :
  List.In (c, (col, row)) (linstances inst r0 p) -> List.In (VInstance F c col row) (levents inst r0 p).
Proof.
elim: p r0 => //= [C body q IH|ts q IH|c' col' row' q IH] r0.
- by case: (returns _ _) => // d /IH; right.
- by move=> /IH; right.
- by move=> [[-> -> ->]|/IH]; [left|right].
Qed.
Lemma regions_inj A (p : lprog F A) r ops ops' :
  List.In (r, ops) (lregions inst 0 p) -> List.In (r, ops') (lregions inst 0 p) -> ops = ops'.
Proof.
move=> /lregions_nth [i hi [-> h]] /lregions_nth [j hj [e h']].
have ee : i = j by move: e; rewrite !add0n.
by have := h (0, [::]); rewrite ee h' => -[].
Qed.

(* the calls of a plan are those for its events and those for its constants *)
Definition plan_has (place : nat -> nat) (cpos : nat -> nat * nat) (es : seq (levent F)) (tr : seq (aop F)) : Prop :=
  [/\ forall e o, List.In e es -> List.In o (event_calls place e) -> List.In o tr,
    forall x, List.In x (all_wanted es) -> exists col row,
      List.In (AFixed col row (known x.1)) tr /\
      List.In (ACopy F (Fixed, col) row (c_column x.2) (cell_row place x.2)) tr &
    forall s row, List.In (AEnable F s row) tr -> exists2 e, List.In e es & List.In (AEnable F s row) (event_calls place e)].

Lemma In_cat T (x : T) s t : List.In x (s ++ t) <-> List.In x s \/ List.In x t.
Proof. exact: List.in_app_iff. Qed.

Lemma constant_calls_has place cpos i (cs : seq (assigned F * cell)) tr : constant_calls place cpos i cs = tr ->
  (forall x, List.In x cs -> exists col row, List.In (AFixed col row (known x.1)) tr /\
    List.In (ACopy F (Fixed, col) row (c_column x.2) (cell_row place x.2)) tr) /\
  (forall s row, ~ List.In (AEnable F s row) tr).
Proof.
move=> <-; elim: cs i => [|x cs IH] i; first by split=> // s row [].
split=> /=.
- move=> y [<-|h]; first by exists (cpos i).1, (cpos i).2; auto.
  by have [col [row [h1 h2]]] := (IH i.+1).1 y h; exists col, row; auto.
- by move=> s row [//|[//|h]]; apply: (IH i.+1).2 h.
Qed.

Lemma inline_has place cpos i es : plan_has place cpos es (plan_calls_inline place cpos i es).
Proof.
elim: es i => [|e es IH] i; first by split=> // s row [].
have [h1 h2 h3] := IH (i + size (event_wants e)).
have [c1 c2] := @constant_calls_has place cpos i (event_wants e) _ erefl.
split=> /=.
- move=> e' o [<-|he] ho; rewrite !In_cat; first by left.
  by right; right; apply: h1 he ho.
- move=> x; rewrite /all_wanted /= In_cat => -[/c1|/h2] [col [row [k1 k2]]];
    by exists col, row; rewrite !In_cat; auto.
- move=> s row; rewrite !In_cat => -[h|[/c2 //|/h3 [e' k1 k2]]]; first by exists e; [left|].
  by exists e'; [right|].
Qed.
Lemma at_end_has place cpos es : plan_has place cpos es (plan_calls_at_end place cpos es).
Proof.
have [c1 c2] := @constant_calls_has place cpos 0 (all_wanted es) _ erefl; split.
- move=> e o he ho; rewrite In_cat; left; elim: es he {c1 c2} => //= e' es IH [->|/IH h]; rewrite In_cat; auto.
- by move=> x /c1 [col [row [k1 k2]]]; exists col, row; rewrite !In_cat; auto.
- move=> s row; rewrite In_cat => -[h|/c2 //].
  elim: es h {c1 c2} => //= e es IH; rewrite In_cat => -[h|/IH [e' h1 h2]]; first by exists e; [left|].
  by exists e'; [right|].
Qed.

Local Open Scope ring_scope.
Lemma row_ofE place c : row_of (fun r => (place r)%:Z) c = (cell_row place c)%:Z.
Proof. by rewrite /row_of /cell_row PoszD. Qed.

Theorem C33_plan_carries_out place cpos (p : lprog F unit) tr :
  plan_has place cpos (levents inst 0 p) tr -> no_overlap place (lregions inst 0 p) ->
  carries_out inst place p tr.
Proof.
move=> [h1 h2 h3] hno.
have op r ops o o' : List.In (r, ops) (lregions inst 0 p) -> List.In o ops -> List.In o' (moved place r o) ->
    List.In o' tr.
  move=> /lregions_levents he ho ho'; apply: (h1 _ _ he); rewrite /= In_cat; right; left.
  by elim: ops ho {he} => //= o2 ops IH [->|/IH h]; rewrite In_cat; auto.
have cw r ops x : List.In (r, ops) (lregions inst 0 p) -> List.In x (wanted r ops) -> exists col row,
      List.In (AFixed col row (known x.1)) tr /\
      List.In (ACopy F (Fixed, col) row (c_column x.2) (cell_row place x.2)) tr.
  move=> /lregions_levents he hx; apply: h2.
  by elim: (levents inst 0 p) he => //= e es IH [->|/IH h]; rewrite /all_wanted /= In_cat; auto.
have wanted_const r (ops : seq (rop F)) c off (v : assigned F) : List.In (OAdviceConstant c off v) ops -> List.In (v, Cell r off (Advice, c)) (wanted r ops).
  by elim: ops => //= o ops IH [->|/IH h] /=; [left|case: o => *; rewrite /=; auto].
have wanted_cons r (ops : seq (rop F)) c (v : assigned F) : List.In (OConstrainConstant c v) ops -> List.In (v, c) (wanted r ops).
  by elim: ops => //= o ops IH [->|/IH h] /=; [left|case: o => *; rewrite /=; auto].
have only T r s off : only_selected T tr -> t_selector T s (r%:Z + off%:Z) ->
    exists r' ops' off', [/\ List.In (r', ops') (lregions inst 0 p), List.In (OEnable s off') ops' & (r + off = place r' + off')%N].
  move=> hs /hs /List.Exists_exists [o [ho ]]; case: o ho => // s' row' ho [es er]; subst s'.
  have {er} er : (r + off = row')%N by apply/eqP; rewrite -eqz_nat PoszD er.
  have [e he] := h3 _ _ ho; case: e he => [r' ops'|ts|c col row] he /=.
  - case=> // /In_cat [|[] //] hm.
    have [o [off' [k1 k2]]] : exists o off', List.In o ops' /\ o = OEnable s off' /\ (row' = place r' + off')%N.
      elim: ops' hm {he ho} => //= o ops' IH /In_cat [|/IH [o' [off' [k1 k2]]]]; last by exists o', off'; auto.
      case: o => [s'' o''|c o'' v|c o'' v|i r2 c o'' v|i r2|c o'' v|c v|c c'] /= hh;
        try by exfalso; repeat (case: hh => // hh).
      by case: hh => // -[-> <-]; exists (OEnable s o''), o''; auto.
    case: k2 => k2 k3; exists r', ops', off'; split; first exact/lregions_levents.
      by rewrite -k2.
    by rewrite er.
  - case=> // /In_cat [hm|[] // hm]; exfalso.
      by elim: (ts) hm => //= t l IH [//|].
    by elim: (table_columns ts) hm => //= t l IH [//|].
  - by case.
split.
- move=> T /List.Forall_forall hT; split; apply/List.Forall_forall.
    move=> [r ops] hr; apply/List.Forall_forall => o ho /=.
    have mo o' := op r ops o o' hr ho.
    case: o ho mo => [s off|c off v|c off v|i row c off v|i row|c off v|c v|c c'] ho mo //=.
    + by rewrite -PoszD; apply: (hT (AEnable F s (place r + off))); apply: mo; left.
    + have [col [row [k1 k2]]] := cw _ _ _ hr (wanted_const r ops c off v ho).
      by rewrite -PoszD; have /= <- := hT _ k2; apply: (hT _ k1 v erefl).
    + rewrite -PoszD; apply: (hT (ACopy F (Advice, c) (place r + off) (Instance, i) row)).
      by apply: mo; right; left.
    + by move=> x hx; rewrite -PoszD; apply: (hT (AFixed c (place r + off) v)) hx; apply: mo; left.
    + have [col [row [k1 k2]]] := cw _ _ _ hr (wanted_cons r ops c v ho).
      by rewrite /cell_value row_ofE; have /= <- := hT _ k2; apply: (hT _ k1 v erefl).
    + rewrite /cell_value !row_ofE.
      apply: (hT (ACopy F (c_column c) (cell_row place c) (c_column c') (cell_row place c'))).
      by apply: mo; left.
  move=> [c [col row]] /linstances_levents he /=; rewrite /cell_value row_ofE.
  apply: (hT (ACopy F (c_column c) (cell_row place c) (Instance, col) row)).
  by apply: h1 he _; left.
- move=> T /List.Forall_forall hT /List.Forall_forall hA; apply/List.Forall_forall.
  move=> [r ops] hr; apply/List.Forall_forall => o ho /=.
  have mo o' := op r ops o o' hr ho.
  case: o ho mo => [s off|c off v|c off v|i row c off v|i row|c off v|c v|c c'] ho mo //=.
  + by move=> x hx; rewrite -PoszD; apply: (hA (AAdvice c (place r + off) v)) hx; apply: mo; left.
  + by rewrite -PoszD; apply: (hA (AAdvice c (place r + off) (known v))); rewrite //; apply: mo; left.
  + move=> x hx; rewrite -PoszD.
    have := hA (AAdvice c (place r + off) (v_of_field v)) (mo _ (or_introl erefl)) (ATrivial x).
    by rewrite hx /= => ->.
  + by move=> x hx; rewrite -PoszD; apply: (hT (AFixed c (place r + off) v)) hx; apply: mo; left.
- move=> T sels hs s row _ /[dup] hsel /hs /List.Exists_exists [o [ho]]; case: o ho => // s' row' ho [es er]; subst s'.
  have [r' [ops' [off' [k1 k2 k3]]]] : exists r' ops' off', [/\ List.In (r', ops') (lregions inst 0 p),
      List.In (OEnable s off') ops' & (row' + 0 = place r' + off')%N].
    by apply: (only T); rewrite // addr0 -er.
  apply/List.Exists_exists; exists (r', ops'); split=> //; exists off'.
    by elim: (ops') k2 => //= o2 l IH [->|/IH ->]; rewrite ?eqxx // orbT.
  by rewrite er -PoszD -k3 addn0.
- move=> T r ops sels /List.Forall_forall hT hs hr hsels s off hin hoff.
  apply/idP/idP => [/(only _ _ _ _ hs) [r' [ops' [off' [k1 k2 k3]]]]|hen].
    have hc' : RCSelector s \in columns_of ops' /\ (off' < height ops')%N.
      elim: (ops') k2 => //= o2 l IH [->|/IH []]; rewrite /columns_of /height /=.
        by rewrite mem_head leq_max ltnSn.
      by case: (rop_uses o2) => [u|] //= g1 g2; rewrite inE g1 orbT leq_max g2 orbT.
    have er : r = r'.
      apply/eqP; apply/negPn/negP => /eqP ne.
      case: (hno r ops r' ops' (RCSelector s) hr k1 ne (hsels _ hin) hc'.1) => hh.
        have : (place r + off < place r')%N by apply: leq_trans hh; rewrite ltn_add2l.
        by rewrite k3 ltnNge leq_addr.
      have : (place r' + off' < place r)%N by apply: leq_trans hh; rewrite ltn_add2l hc'.2.
      by rewrite -k3 ltnNge leq_addr.
    have eo : off = off' by move: k3; rewrite er => /addnI.
    move: k2; rewrite eo -er in k1 *; rewrite -(regions_inj hr k1) => k2.
    by elim: (ops) k2 => //= o2 l IH [->|/IH ->]; rewrite ?eqxx // orbT.
  have ho : List.In (OEnable s off) ops.
    elim: (ops) hen => //= o2 l IH /orP [|/IH]; last by right.
    by case: o2 => // s2 o2 /andP [/eqP -> /eqP ->]; left.
  by rewrite -PoszD; apply: (hT (AEnable F s (place r + off))); apply: (op _ _ _ _ hr ho); left.
Qed.

(* both planners *)
Theorem C33_simple_carries_out constants (p : lprog F unit) tr :
  performed inst (simple_floor_planner constants p) = Ok tr -> measured_alike inst 0 p ->
  exists2 place, no_overlap place (lregions inst 0 p) & carries_out inst place p tr.
Proof.
move=> h hm; have [place [cpos [-> hno _]]] := C33_simple_floor_planner h hm.
exists place => //; apply: C33_plan_carries_out hno; exact: inline_has.
Qed.
Theorem C34_v1_carries_out order constants (p0 p : lprog F unit) tr :
  performed inst (v1_floor_planner order constants p0 p) = Ok tr ->
  (forall r ops, List.In (r, ops) (lregions inst 0 p) -> exists2 ops0,
     List.In (r, ops0) (lregions (@measuring F) 0 p0) &
     {subset pmap (@rop_uses F) ops <= pmap (@rop_uses F) ops0}) ->
  (forall s, perm_eq (order s) s) -> uniq constants ->
  exists2 place, no_overlap place (lregions inst 0 p) & carries_out inst place p tr.
Proof.
move=> h hm ho hu; have [place [cpos [-> hno _]]] := C34_v1_floor_planner h hm ho hu.
exists place => //; apply: C33_plan_carries_out hno; exact: at_end_has.
Qed.
End Simple.

(* ---------------------------------------------------------------- examples *)

Section Examples.
Variable F : fieldType.
(* Two regions with the same selector and a common advice column, a third with columns of its own;
   constants; a copy between regions; a lookup table of two columns; an instance constraint; and a
   region that reads an instance value. *)
Definition ex_circuit (w : value F) : lprog F unit :=
  LRegion (fun r => REnable 0 0 (RAdvice 0 0 (v_of_field w) (RAdviceConstant 1 1 (ATrivial 5%:R)
    (RRet F (Cell r 0 (Advice, 0), Cell r 1 (Advice, 1)))))) (fun c =>
  LTable [:: TAssign 3 0 (known (ATrivial 0%R)); TAssign 3 1 (known (ATrivial 1%R));
             TAssign 4 0 (known (ATrivial 7%:R)); TAssign 4 1 (known (ATrivial 8%:R))] (
  LRegion (fun r => REnable 0 1 (RAdvice 0 1 (v_of_field w) (RAdvice 2 0 (v_of_field w)
    (RConstrainEqual (Cell r 1 (Advice, 0)) c.1
    (RConstrainConstant (Cell r 0 (Advice, 2)) (ATrivial 6%:R) (RRet F (Cell r 1 (Advice, 0)))))))) (fun c' =>
  LInstance c' 0 0 (
  LRegion (fun r => RAdviceInstance 0 1 5 0 (fun v => RAdvice 5 2 (v_of_field v) (RRet F tt))) (fun _ =>
  LRet tt))))).

Definition ex_place (r : nat) : nat := nth 0 [:: 0; 2; 0] r.
Definition ex_v1_place (r : nat) : nat := nth 0 [:: 2; 0; 0] r.
Definition ex_calls (inst : nat -> nat -> value F) w (place : nat -> nat) (c5 c6 : nat) (late : bool) : seq (aop F) :=
  let k5 := [:: AFixed 0 c5 (known (ATrivial 5%:R)); ACopy F (Fixed, 0) c5 (Advice, 1) (place 0 + 1)] in
  let k6 := [:: AFixed 0 c6 (known (ATrivial 6%:R)); ACopy F (Fixed, 0) c6 (Advice, 2) (place 1 + 0)] in
  [:: AEnter F; AEnable F 0 (place 0 + 0); AAdvice 0 (place 0 + 0) (v_of_field w);
    AAdvice 1 (place 0 + 1) (known (ATrivial 5%:R)); AExit F] ++ (if late then [::] else k5) ++
  [:: AEnter F; AFixed 3 0 (known (ATrivial 0%R)); AFixed 3 1 (known (ATrivial 1%R));
    AFixed 4 0 (known (ATrivial 7%:R)); AFixed 4 1 (known (ATrivial 8%:R)); AExit F;
    AFill 3 2 (known (ATrivial 0%R)); AFill 4 2 (known (ATrivial 7%:R));
    AEnter F; AEnable F 0 (place 1 + 1); AAdvice 0 (place 1 + 1) (v_of_field w);
    AAdvice 2 (place 1 + 0) (v_of_field w);
    ACopy F (Advice, 0) (place 1 + 1) (Advice, 0) (place 0 + 0); AExit F] ++ (if late then [::] else k6) ++
  [:: ACopy F (Advice, 0) (place 1 + 1) (Instance, 0) 0;
    AEnter F; AAdvice 5 (place 2 + 0) (v_of_field (inst 0 1)); ACopy F (Advice, 5) (place 2 + 0) (Instance, 0) 1;
    AAdvice 5 (place 2 + 2) (v_of_field (inst 0 1)); AExit F] ++
  (if late then k5 ++ k6 else [::]).

(* the hypotheses of C33 are met by it, and the calls are those one expects *)
Example ex_simple inst w : performed inst (simple_floor_planner [:: 0] (ex_circuit w)) =
  Ok (ex_calls inst w ex_place 0 1 false).
Proof. by []. Qed.
Example ex_measured inst w : measured_alike inst 0 (ex_circuit w).
Proof. by do 3 (split; first by move=> x; apply). Qed.
Example ex_simple_carries inst w :
  exists2 place, no_overlap place (lregions inst 0 (ex_circuit w)) &
    carries_out inst place (ex_circuit w) (ex_calls inst w ex_place 0 1 false).
Proof. exact: C33_simple_carries_out (ex_simple inst w) (ex_measured inst w). Qed.
(* without a constants column the circuit is refused *)
Example ex_no_constants inst w : performed inst (simple_floor_planner [::] (ex_circuit w)) =
  Err ENotEnoughColumnsForConstants.
Proof. by []. Qed.

(* V1: the last region measured with most advice cells goes first *)
Example ex_v1 inst w : performed inst (v1_floor_planner by_advice_area [:: 0] (ex_circuit unknown) (ex_circuit w)) =
  Ok (ex_calls inst w ex_v1_place 0 1 true).
Proof. by []. Qed.
Example ex_v1_carries inst w :
  exists2 place, no_overlap place (lregions inst 0 (ex_circuit w)) &
    carries_out inst place (ex_circuit w) (ex_calls inst w ex_v1_place 0 1 true).
Proof.
apply: C34_v1_carries_out (ex_v1 inst w) _ _ _ => //; last by move=> s; have [] := C34_default_order s.
move=> r ops /lregions_levents /=; move=> [[<- <-]|[//|[[<- <-]|[//|[[<- <-]|//]]]]].
- by eexists; first by left.
- by eexists; first by right; left.
- by eexists; first by right; right; left.
Qed.
End Examples.

(* strategy.rs:244-271, the test of slot_in: three regions, the second above the first, the third
   next to the first *)
Definition ex_shapes : seq shape :=
  let a c := RCColumn (Advice, c) in
  [:: Shape [:: a 0; a 1] 15; Shape [:: a 2] 10; Shape [:: a 2; a 0] 10].
Example ex_slot_in : (if slot_in (fun _ => [::]) (zip (iota 0 3) ex_shapes) is Ok (out, _)
  then [seq x.1 | x <- out] == [:: 0; 0; 15] else false) /\ all shape_ok ex_shapes.
Proof. by []. Qed.

Print Assumptions C33_simple_floor_planner.
Print Assumptions C33_plan_carries_out.
Print Assumptions C33_simple_carries_out.
Print Assumptions C34_v1_floor_planner.
Print Assumptions C34_first_fit.
Print Assumptions C34_default_order.
Print Assumptions C34_v1_carries_out.
