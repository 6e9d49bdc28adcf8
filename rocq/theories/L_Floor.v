(* Floor plans: what SimpleFloorPlanner does, call by call. *)
Set Warnings "-notation-overridden,-ambiguous-paths".
From mathcomp Require Import all_ssreflect all_algebra.
From Verif Require Import Util M_Env M_Assigned P_Assigned M_Circuit S_Circuit M_Selectors M_Copy M_Value M_Region S_Region
  M_Layout S_Layout M_Assign M_Floor S_Floor.
Import GRing.Theory.
Set Implicit Arguments.
Unset Strict Implicit.

Lemma eq_map_In (A C : Type) (f g : A -> C) s : (forall x, List.In x s -> f x = g x) -> map f s = map g s.
Proof. by elim: s => //= x s IH h; rewrite h ?IH //; [move=> y hy; apply: h; right|left]. Qed.
Lemma mapP_In (A : Type) (C : eqType) (f : A -> C) s y : y \in map f s -> exists2 x, List.In x s & y = f x.
Proof.
elim: s => //= x s IH; rewrite inE => /orP [/eqP ->|/IH [z hz ->]]; first by exists x; [left|].
by exists z; [right|].
Qed.
Lemma allP_In (A : Type) (a : pred A) s x : all a s -> List.In x s -> a x.
Proof. by elim: s => //= y s IH /andP [ha hs] [<-|/IH]; auto. Qed.

Section Floor.
Variables (F : fieldType) (inst : nat -> nat -> value F).
Local Notation performed := (performed inst).
Local Notation calls := (calls inst).
Local Notation returns := (returns inst).

Lemma performed_op o (k : synth F) tr :
  performed (SOp o k) = Ok tr -> exists2 t, performed k = Ok t & tr = o :: t.
Proof. by rewrite /=; case: (S_Floor.performed inst k) => //= t [<-]; exists t. Qed.

(* [place] says where the regions laid out so far start *)
Definition starts_at (place : nat -> nat) (regions : seq nat) : Prop :=
  forall i s, get regions i = Some s -> place i = s.

Lemma with_rowP regions r off k tr :
  performed (with_row regions r off k) = Ok tr ->
  exists2 s, get regions r = Some s & performed (k (s + off)) = Ok tr.
Proof. by rewrite /with_row; case: (get regions r) => // s h; exists s. Qed.

Lemma place_regionP A regions r (p : rprog F A) cs k tr :
  performed (place_region regions r p cs k) = Ok tr ->
  exists a tr2, [/\ returns p = Ok a, performed (k a (cs ++ wanted r (calls p))) = Ok tr2 &
    forall place, starts_at place regions ->
      tr = flatten [seq moved place r o | o <- calls p] ++ tr2].
Proof.
elim: p cs tr => //= [a|s o q IH|c o v q IH|c o v q IH|i ir c o q IH|i ir q IH|c o v q IH|c v q IH|c c' q IH] cs tr.
- by move=> h; exists a, tr; rewrite cats0.
- move=> /with_rowP [st hs] /performed_op [t /IH [a [t2 [h1 h2 h3]]] ->].
  by exists a, t2; split=> // place hp; rewrite (h3 _ hp) /moved (hp _ _ hs).
- move=> /with_rowP [st hs] /performed_op [t /IH [a [t2 [h1 h2 h3]]] ->].
  by exists a, t2; split=> // place hp; rewrite (h3 _ hp) /moved (hp _ _ hs).
- move=> /with_rowP [st hs] /performed_op [t /IH [a [t2 [h1 h2 h3]]] ->].
  by exists a, t2; split; rewrite // ?cat_rcons // in h2 * => place hp; rewrite (h3 _ hp) /moved (hp _ _ hs).
- move=> /with_rowP [st hs] /performed_op [t] /performed_op [t' /IH [a [t2 [h1 h2 h3]]] ->] ->.
  by exists a, t2; split=> // place hp; rewrite (h3 _ hp) /moved (hp _ _ hs).
- by move=> /IH [a [t2 [h1 h2 h3]]]; exists a, t2; split=> // place hp; rewrite (h3 _ hp).
- move=> /with_rowP [st hs] /performed_op [t /IH [a [t2 [h1 h2 h3]]] ->].
  by exists a, t2; split=> // place hp; rewrite (h3 _ hp) /moved (hp _ _ hs).
- move=> /IH [a [t2 [h1 h2 h3]]].
  by exists a, t2; split; rewrite // ?cat_rcons // in h2 * => place hp; rewrite (h3 _ hp).
- move=> /with_rowP [st hs] /with_rowP [st' hs'] /performed_op [t /IH [a [t2 [h1 h2 h3]]] ->].
  by exists a, t2; split=> // place hp; rewrite (h3 _ hp) /moved /cell_row (hp _ _ hs) (hp _ _ hs').
Qed.

(* ---------------------------------------------------------------- tables *)

Definition tstep (d : tstate F) (t : tassign F) : tstate F :=
  let e := tget d (ta_column t) in
  tput d (ta_column t) (if ta_offset t == 0 then Some (ta_value t) else e.1, mark (ta_offset t) e.2).

Lemma tget_tput (d : tstate F) c x c' : tget (tput d c x) c' = if c' == c then x else tget d c'.
Proof.
elim: d => [|e d IH] /=; first by rewrite eq_sym.
case: (e.1 =P c) => [ec|ne] /=; first by rewrite ec [c == c']eq_sym; case: (c' =P c).
by rewrite IH; case: (e.1 =P c') => // ec; case: (c' =P c) => // e2; case: ne; rewrite ec e2.
Qed.

Lemma table_cellsP used ts d k tr :
  performed (table_cells used ts d k) = Ok tr ->
  exists tr2, [/\ performed (k (foldl tstep d ts)) = Ok tr2,
    tr = [seq AFixed (ta_column t) (ta_offset t) (ta_value t) | t <- ts] ++ tr2,
    all (fun t => ta_column t \notin used) ts,
    forall c, isSome (tget d c).1 -> ~~ has (fun t => (ta_column t == c) && (ta_offset t == 0)) ts &
    forall c, (tget (foldl tstep d ts) c).1 =
      if (tget d c).1 is Some v then Some v
      else if has (fun t => (ta_column t == c) && (ta_offset t == 0)) ts then Some (table_default ts c) else None].
Proof.
elim: ts d tr => [|t ts IH] d tr /=; first by move=> h; exists tr; split=> // c; case: (tget d c).1.
case: ifP => // hu; rewrite -/(tstep d t) => /performed_op [t'].
case: ifP => // h0 /IH [tr2 [h1 h2 h3 h4 h5]] ->; exists tr2; split=> //; rewrite ?h2 ?h3 ?hu //; last first.
  move=> c; rewrite h5 tget_tput; case: (c =P ta_column t) h0 => [->|ne] h0; last first.
    by case: (ta_column t =P c) ne => // ->.
  rewrite eqxx /=; case: (ta_offset t =P 0) h0 => [e0|//] /=.
  by case: (tget d (ta_column t)).1.
move=> c hc; rewrite negb_or; apply/andP; split.
  by apply/negP => /andP [/eqP e1 /eqP e2]; move: h0; rewrite e1 e2 hc.
apply: h4; rewrite /tstep; move: hc; set x := (X in tput d _ X).
have hx : isSome (tget d (ta_column t)).1 -> isSome x.1 by rewrite /x /=; case: ifP.
elim: (d) hx => [|e d' IHd] //=; case: (e.1 =P ta_column t) => [->|ne] hx /=.
  by case: (ta_column t =P c) => // _ /hx.
by case: (e.1 =P c) => // _; apply: IHd.
Qed.

Lemma keys_tput (d : tstate F) c x : unzip1 (tput d c x) = if c \in unzip1 d then unzip1 d else rcons (unzip1 d) c.
Proof.
elim: d => [|e d IH] //=; rewrite inE [c == _]eq_sym; case: (e.1 =P c) => [->|ne] //=.
by rewrite IH; case: ifP.
Qed.
Lemma tget_in (d : tstate F) e : uniq (unzip1 d) -> List.In e d -> tget d e.1 = e.2.
Proof.
elim: d => [|e' d IH] //= /andP [hn hu] [->|hi]; first by rewrite eqxx.
rewrite IH //; case: (e'.1 =P e.1) => // ee; case/negP: hn; rewrite ee.
elim: (d) hi => [|x d' IHd] //= [->|hi]; rewrite inE ?eqxx //.
by rewrite IHd // orbT.
Qed.

Lemma nth_mark off s i : nth false (mark off s) i = (i == off) || nth false s i.
Proof.
rewrite /mark /upd; set s' := s ++ _.
have hs : off < size s'.
  by rewrite size_cat size_nseq -maxnE leq_max ltnSn orbT.
have hn : nth false s' i = nth false s i.
  rewrite nth_cat; case: ltnP => // h; rewrite nth_nseq if_same nth_default //.
rewrite nth_cat size_take hs; case: (ltngtP i off) => [h|h|->] /=.
- by rewrite nth_take.
- rewrite -hn; have -> : i - off = (i - off.+1).+1 by nlia.
  by rewrite /= nth_drop; congr (nth _ _ _); nlia.
- by rewrite subnn.
Qed.
Lemma size_mark off s : size (mark off s) = maxn (size s) off.+1.
Proof.
rewrite /mark /upd size_cat /= size_drop size_take size_cat size_nseq.
have h : off < maxn (size s) off.+1 by rewrite leq_max ltnSn orbT.
by rewrite -maxnE h addnS -addSn subnKC.
Qed.

(* what the layouter knows after the cells ts, starting from nothing *)
Lemma tstateP ts (d := foldl tstep [::] ts) :
  [/\ unzip1 d = table_columns ts, uniq (unzip1 d),
    forall c off, nth false (tget d c).2 off = has (fun t => (ta_column t == c) && (ta_offset t == off)) ts,
    forall c, size (tget d c).2 = foldr maxn 0 [seq (ta_offset t).+1 | t <- ts & ta_column t == c] &
    forall c, isSome (tget d c).1 = has (fun t => (ta_column t == c) && (ta_offset t == 0)) ts].
Proof.
have hu s : uniq (rev (undup (rev [seq ta_column t | t <- (s : seq (tassign F))]))).
  by rewrite rev_uniq undup_uniq.
rewrite /d; elim/last_ind: ts {d} => [|ts t [h1 h2 h3 h4 h5]]; first by split=> // c; case.
rewrite foldl_rcons; set d := foldl _ _ ts in h1 h2 h3 h4 h5 *.
have hk : unzip1 (tstep d t) = table_columns (rcons ts t).
  rewrite /tstep keys_tput h1 /table_columns map_rcons rev_rcons /= !mem_rev mem_undup mem_rev.
  by case: ifP => //; rewrite rev_cons.
split=> //; first by rewrite hk hu.
- move=> c off; rewrite tget_tput has_rcons; case: (c =P ta_column t) => [->|ne] /=.
    by rewrite nth_mark h3 eqxx /= [off == _]eq_sym.
  by rewrite h3; case: (ta_column t =P c) ne => // ->.
- move=> c; rewrite tget_tput filter_rcons; case: (c =P ta_column t) => [->|ne] /=.
    rewrite eqxx size_mark h4 map_rcons -cats1 foldr_cat /= maxn0.
    elim: [seq _ | _ <- _] => [|x s IH] /=; first by rewrite max0n.
    by rewrite -maxnA IH.
  by rewrite h4; case: (ta_column t =P c) ne => // ->.
- move=> c; rewrite tget_tput has_rcons; case: (c =P ta_column t) => [->|ne] /=.
    by rewrite eqxx /=; case: (ta_offset t =P 0) => //= _; rewrite h5.
  by rewrite h5; case: (ta_column t =P c) ne => // ->.
Qed.

Lemma leq_foldr_max m s : (foldr maxn 0 s <= m) = all (fun x => x <= m) s.
Proof. by elim: s => //= x s IH; rewrite geq_max IH. Qed.

Lemma lengthsP (d : tstate F) L : compute_table_lengths d = Ok L ->
  List.Forall (fun e => [/\ isSome e.2.1, all id e.2.2 & size e.2.2 = L]) d /\ (d = [::] -> L = 0).
Proof.
rewrite /compute_table_lengths.
have h ls : column_lengths d = Ok ls ->
    List.Forall (fun e => [/\ isSome e.2.1, all id e.2.2 & size e.2.2 \in ls]) d /\ all (leq 1) ls.
  elim: d ls => [|e d IH] ls /=; first by move=> [<-].
  rewrite /column_length; case hv: e.2.1 => [v|] //=.
  case: (size e.2.2 =P 0) => //= h0; case: ifP => //= ha.
  case: (column_lengths d) IH => //= ls' /(_ _ erefl) [IH1 IH2] [<-]; split.
    constructor; first by rewrite hv ha inE eqxx.
    by apply: List.Forall_impl IH1 => x [h1 h2 h3]; rewrite inE h3 orbT; split.
  by rewrite /= IH2 lt0n; case: eqP h0.
have hz ls : column_lengths d = Ok ls -> size ls = size d.
  elim: (d) ls => [|e d' IH] ls /=; first by move=> [<-].
  case: (column_length e) => //= l; case: (column_lengths d') IH => //= ls' IH [<-] /=.
  by rewrite (IH _ erefl).
case: (column_lengths d) h hz => //= ls /(_ _ erefl) [h1 h2] /(_ _ erefl) hz hf.
have ferr l : foldl (fun acc l => rbind acc (fun m => if (m == 0) || (m == l) then Ok l else Err ETable)) (Err ETable) l
    = Err ETable :> res nat by elim: l.
have key m l : 0 < m -> all (leq 1) l ->
    foldl (fun acc l => rbind acc (fun m => if (m == 0) || (m == l) then Ok l else Err ETable)) (Ok m) l = Ok L ->
    L = m /\ all (pred1 m) l.
  elim: l m => [|x l IH] m hm /=; first by move=> _ [<-].
  move=> /andP [hx hl]; rewrite eqn0Ngt hm /=; case: (m =P x) => [<-|ne]; last by rewrite ferr.
  by move=> /IH [] // -> ->; rewrite eqxx.
case: ls h1 h2 hz hf => [|l ls] h1 /=.
  by case: (d) h1 => // _ _ _ [<-].
move=> /andP [hl hls] hz /key [] // -> ha; split; last by move=> e; move: hz; rewrite e.
apply: List.Forall_impl h1 => e [-> -> hs]; split=> //; move: hs; rewrite inE => /orP [/eqP //|].
by move=> /(allP ha) /eqP.
Qed.

Lemma fill_columnsP from (d : tstate F) k tr :
  performed (fill_columns from d k) = Ok tr ->
  exists2 tr2, performed k = Ok tr2 & tr = [seq AFill e.1 from (odflt (unknown : value (assigned F)) e.2.1) | e <- d] ++ tr2.
Proof.
elim: d tr => [|e d IH] tr /=; first by exists tr.
case: e.2.1 => [v|] // /performed_op [t /IH [tr2 h ->] ->]; by exists tr2.
Qed.

Lemma place_tableP used ts k tr :
  performed (place_table used ts k) = Ok tr ->
  exists tr2, [/\ performed (k (used ++ table_columns ts)) = Ok tr2, tr = table_calls ts ++ tr2,
    table_complete ts & all (fun c => c \notin used) (table_columns ts)].
Proof.
move=> /performed_op [tr1 /table_cellsP [tr1' [/performed_op [tr3 h3 ->] -> hu _ hd]] ->].
have [k1 k2 k3 k4 k5] := tstateP ts.
set d := foldl tstep [::] ts in h3 hd k1 k2 k3 k4 k5.
case: (compute_table_lengths d) (@lengthsP d) h3 => // L /(_ _ erefl) [hL hL0] /fill_columnsP [tr2 h2 ->].
have inD c : c \in table_columns ts -> [/\ isSome (tget d c).1, all id (tget d c).2 & size (tget d c).2 = L].
  rewrite -k1 => hc; have : exists2 e, List.In e d & e.1 = c.
    elim: (d) hc => [|e d' IH] //=; rewrite inE => /orP [/eqP ->|/IH [x hx hx1]]; first by exists e; [left|].
    by exists x; [right|].
  move=> [e he <-]; rewrite (tget_in k2 he).
  by have /List.Forall_forall/(_ _ he) := hL.
have eL : table_length ts = L.
  have hT : forall t, List.In t ts -> ta_column t \in table_columns ts.
    move=> t; rewrite /table_columns mem_rev mem_undup mem_rev.
    by elim: (ts) => //= t' ts' IH [->|/IH h]; rewrite inE ?eqxx // h orbT.
  apply/eqP; rewrite eqn_leq /table_length leq_foldr_max; apply/andP; split.
    have : forall t, List.In t ts -> (ta_offset t).+1 <= L.
      move=> t ht; have [_ _ <-] := inD _ (hT t ht).
      rewrite k4; elim: (ts) ht => //= t' ts' IH [->|/IH h]; first by rewrite eqxx /= leq_maxl.
      by case: ifP => //= _; rewrite leq_max h orbT.
    by elim: (ts) => //= t ts' IH h; rewrite h ?IH //; [move=> x hx; apply: h; right|left].
  have [d0|[e he]] : d = [::] \/ exists e, List.In e d.
    by case: (d) => [|e d']; [left|right; exists e; left].
    by rewrite (hL0 d0).
  have /List.Forall_forall/(_ _ he) [_ _ <-] := hL.
  rewrite -(tget_in k2 he) k4; elim: (ts) => //= t' ts' IH; case: ifP => /= _; last by rewrite leq_max IH orbT.
  by rewrite geq_max leq_maxl leq_max IH orbT.
exists tr2; split.
- by rewrite -k1.
- rewrite /table_calls eL /= -catA /=; congr (_ :: (_ ++ _ :: _)); congr (_ ++ _).
  rewrite -k1 -map_comp /=; apply: eq_map_In => e he /=.
  have [hs _ _] : [/\ isSome (tget d e.1).1, all id (tget d e.1).2 & size (tget d e.1).2 = L].
    by apply: inD; rewrite -k1; elim: (d) he => //= x d' IH [->|/IH h]; rewrite inE ?eqxx // h orbT.
  congr (AFill _ _ _); have := hd e.1; rewrite (tget_in k2 he) /= => ->.
  by rewrite -k5 hs.
- move=> c off hc; have [_ ha hs] := inD c hc.
  rewrite eL -hs -k3; case: ltnP => h; last by rewrite nth_default.
  by move: ha => /all_nthP -> .
- apply/allP => c; rewrite mem_rev mem_undup mem_rev => /mapP_In [t ht ->].
  exact: allP_In hu ht.
Qed.

(* ---------------------------------------------------------------- SimpleFloorPlanner *)

Lemma single_constantsP regions col row cs k tr :
  performed (single_constants regions col row cs k) = Ok tr ->
  exists2 tr2, performed (k (row + size cs)) = Ok tr2 &
    forall place cpos i, starts_at place regions -> (forall j, j < size cs -> cpos (i + j) = (col, row + j)) ->
      tr = constant_calls place cpos i cs ++ tr2.
Proof.
elim: cs row tr => [|x cs IH] row tr /=; first by rewrite addn0 => h; exists tr.
move=> /performed_op [t /with_rowP [st hs] /performed_op [t2 /IH [tr2 h2 h3] ->] ->].
exists tr2; first by rewrite -addSnnS.
move=> place cpos i hp hc; have := hc 0 erefl; rewrite !addn0 => -> /=.
rewrite /cell_row (hp _ _ hs); congr (_ :: _ :: _); apply: h3 => // j hj.
by rewrite addSnnS (hc j.+1) // addSnnS.
Qed.

Lemma assign_constantsP constants st cs k tr :
  performed (assign_constants constants st cs k) = Ok tr ->
  let c := RCColumn (Fixed, head 0 constants) in
  exists st' tr2, [/\ performed (k st') = Ok tr2,
    sg_regions st' = sg_regions st /\ sg_tables st' = sg_tables st,
    forall c', sg_columns st' c' = sg_columns st c' + (if c' == c then size cs else 0),
    constants = [::] -> cs = [::] &
    forall place cpos i, starts_at place (sg_regions st) ->
      (forall j, j < size cs -> cpos (i + j) = (head 0 constants, sg_columns st c + j)) ->
      tr = constant_calls place cpos i cs ++ tr2].
Proof.
rewrite /assign_constants; case: constants => [|col constants] /=.
  case: cs => [|x cs] //= h; exists st, tr; split=> // c'; by rewrite if_same addn0.
move=> /single_constantsP [tr2 h1 h2]; eexists; exists tr2; split; first exact: h1; rewrite //.
by move=> c' /=; rewrite /ins; case: (c' =P _) => [->|]; rewrite ?addn0.
Qed.

Lemma region_startP cols s c : c \in sh_columns s -> cols c <= region_start cols s.
Proof.
rewrite /region_start; have mono l m : m <= foldl (fun st c => maxn st (cols c)) m l.
  by elim: l m => //= c' l IH m; apply: leq_trans (IH _); rewrite leq_maxl.
elim: (sh_columns s) 0 => //= c' l IH m; rewrite inE => /orP [/eqP ->|]; last exact: IH.
by apply: leq_trans (mono _ _); rewrite leq_maxr.
Qed.
Lemma use_columnsP cols s start c :
  use_columns cols s start c = if c \in sh_columns s then start + sh_rows s else cols c.
Proof.
rewrite /use_columns; elim: (sh_columns s) cols => //= c' l IH m; rewrite IH inE /ins.
by case: (c =P c') => //=; case: ifP.
Qed.

(* what a plan keeps apart, given that the rows before [cols c] of every column c are taken *)
Definition geometry (place : nat -> nat) (cols : region_column -> nat) (ccol : region_column) (rows : seq nat)
    (regions : seq (nat * seq (rop F))) : Prop :=
  [/\ forall r ops c, List.In (r, ops) regions -> c \in columns_of ops -> cols c <= place r,
    no_overlap place regions,
    forall x, x \in rows -> cols ccol <= x,
    sorted ltn rows &
    forall x r ops, x \in rows -> List.In (r, ops) regions -> ccol \in columns_of ops ->
      x < place r \/ place r + height ops <= x].

Lemma starts_at_cat place l l' : starts_at place (l ++ l') -> starts_at place l.
Proof.
move=> h i s hs; apply: h; move: hs; rewrite /get drop_cat; case: ltnP => // hi; last by rewrite drop_oversize.
by case: (drop i l).
Qed.

Lemma subset_shape ops ops' : {subset pmap (@rop_uses F) ops <= pmap (@rop_uses F) ops'} ->
  {subset columns_of ops <= sh_columns (shape_of ops')} /\ height ops <= sh_rows (shape_of ops').
Proof.
move=> h; split.
  by move=> c /mapP [u hu ->]; rewrite mem_undup; apply: map_f; apply: h.
rewrite /height /= leq_foldr_max; apply/allP => x /mapP [u /h hu ->].
elim: (pmap _ ops') hu => //= y l IH; rewrite inE => /orP [/eqP ->|/IH hl]; first by rewrite leq_maxl.
by rewrite leq_max hl orbT.
Qed.

Local Arguments place_table : simpl never.
Local Arguments table_calls : simpl never.
Lemma single_layoutP A constants (p : lprog F A) st k tr (r := size (sg_regions st))
    (es := levents inst r p) (ccol := RCColumn (Fixed, head 0 constants)) :
  performed (single_layout constants st p k) = Ok tr -> measured_alike inst r p ->
  exists a st' tr2 l rows,
    [/\ lreturns inst r p = Ok (a, size (sg_regions st')) /\ performed (k a st') = Ok tr2,
      sg_regions st' = sg_regions st ++ l,
      size rows = size (all_wanted es) /\ (constants = [::] -> rows = [::]),
      forall place cpos i, starts_at place (sg_regions st') ->
        (forall j, j < size rows -> cpos (i + j) = (head 0 constants, nth 0 rows j)) ->
        tr = plan_calls_inline place cpos i es ++ tr2 &
      forall place, starts_at place (sg_regions st') ->
        geometry place (sg_columns st) ccol rows (lregions inst r p)].
Proof.
rewrite {}/es {}/r; elim: p st tr => //= [a|C body q IH|ts q IH|c col row q IH] st tr.
- move=> h _; exists a, st, tr, [::], [::]; rewrite cats0; split=> // place _; by split.
- set r := size (sg_regions st); case: (M_Region.returns _ (body r)) => // _.
  set s := shape_of _; set start := region_start _ s; set st1 := Single _ _ _.
  move=> /performed_op [t1 /place_regionP [d [t2 [hd h2 ht]]] ->] [hsub]; rewrite hd.
  have [hcols hrows] := subset_shape hsub.
  move: h2 => /performed_op [t3 /assign_constantsP [st2 [t4 [h4 [er et] ec hn hcc]]] e3].
  have es2 : size (sg_regions st2) = r.+1 by rewrite er /= size_rcons.
  move=> hm; have := IH d st2 t4 h4; rewrite es2 => /(_ hm) [a [st' [tr2 [l [rows [[ha hk] hl [hs hn'] htr hg]]]]]].
  set ops := calls (body r) in ht h4 hcc hsub hcols hrows *.
  set w := wanted r ops in hcc.
  pose crows := [seq sg_columns st1 ccol + j | j <- iota 0 (size w)].
  have ess : sg_regions st' = sg_regions st ++ start :: l by rewrite hl er /= cat_rcons.
  exists a, st', tr2, (start :: l), (crows ++ rows); split=> //.
  + rewrite size_cat size_map size_iota hs size_cat; split=> // e0.
    by rewrite hn' // /crows /w; have := hn e0; rewrite cat0s -/w => ->.
  + move=> place cpos i hp hc.
    have hp2 : starts_at place (sg_regions st2) by apply: starts_at_cat (l) _; rewrite -hl.
    rewrite er in hp2; rewrite (ht _ hp2) /= -!catA /= e3; congr (_ :: (_ ++ _ :: _)).
    rewrite (hcc place cpos i hp2); last first.
      move=> j hj; rewrite hc; last by rewrite size_cat size_map size_iota ltn_addr.
      by rewrite nth_cat size_map size_iota hj (nth_map 0) ?size_iota // nth_iota.
    congr (_ ++ _); apply: htr => // j hj.
    rewrite -addnA hc; last by rewrite size_cat size_map size_iota ltn_add2l.
    by rewrite nth_cat size_map size_iota ltnNge leq_addr /= addKn.
  + move=> place hp; have [g1 g2 g3 g4 g5] := hg place hp.
    have ep : place r = start by apply: hp; rewrite ess /get drop_size_cat.
    have c1 c : sg_columns st c <= sg_columns st1 c.
      by rewrite /= use_columnsP; case: ifP => // hc; apply: leq_trans (region_startP _ hc) (leq_addr _ _).
    have c2 c : sg_columns st1 c <= sg_columns st2 c by rewrite ec leq_addr.
    have c12 c := leq_trans (c1 c) (c2 c).
    have top c : c \in columns_of ops -> place r + height ops <= sg_columns st1 c.
      by move=> /hcols hc; rewrite /= use_columnsP hc ep leq_add2l.
    have crow x : x \in crows -> sg_columns st1 ccol <= x < sg_columns st2 ccol.
      move=> /mapP [j]; rewrite mem_iota add0n => /andP [_ hj] ->.
      by rewrite ec eqxx leq_addr ltn_add2l.
    split.
    * move=> r' ops' c [[<- <-]|hi] hc; last by apply: leq_trans (c12 c) (g1 _ _ _ hi hc).
      by rewrite ep region_startP // hcols.
    * move=> r1 ops1 r2 ops2 c [[<- <-]|h1] [[<- <-]|h2] ne k1 k2 //.
      - by left; apply: leq_trans (top c k1) _; apply: leq_trans (c2 c) (g1 _ _ _ h2 k2).
      - by right; apply: leq_trans (top c k2) _; apply: leq_trans (c2 c) (g1 _ _ _ h1 k1).
      - exact: g2 h1 h2 ne k1 k2.
    * move=> x; rewrite mem_cat => /orP [/crow/andP [h _]|/g3 h]; apply: leq_trans h; [exact: c1|exact: c12].
    * rewrite sorted_pairwise ?pairwise_cat; last exact: ltn_trans.
      rewrite -!sorted_pairwise; try exact: ltn_trans.
      rewrite g4 andbT; apply/andP; split.
        by apply/allrelP => x y /crow /andP [_ h1] /g3 h2; apply: leq_trans h1 h2.
      by rewrite sorted_map; apply: sub_sorted (iota_ltn_sorted 0 _) => i j; rewrite /= ltn_add2l.
    * move=> x r' ops'; rewrite mem_cat => /orP [/crow/andP [h h']|hx] [[<- <-]|hi] hc.
      - by right; apply: leq_trans (top _ hc) h.
      - by left; apply: leq_trans h' (g1 _ _ _ hi hc).
      - by right; apply: leq_trans (top _ hc) _; apply: leq_trans (c2 _) (g3 _ hx).
      - exact: g5 hx hi hc.
- move=> h hm; have [t2 [h2 -> _ _]] := @place_tableP _ ts (fun tables =>
    single_layout constants (Single (sg_regions st) (sg_columns st) tables) q k) tr h.
  have /= := IH _ t2 h2 hm => -[a [st' [tr2 [l [rows [h1 hl hs htr hg]]]]]].
  exists a, st', tr2, l, rows; split=> // place cpos i hp hc.
  by rewrite /= addn0 (htr place cpos i hp hc) !catA.
- move=> /with_rowP [s hs] /performed_op [t2 h2 ->] hm.
  have [a [st' [tr2 [l [rows [h1 hl hsz htr hg]]]]]] := IH _ t2 h2 hm.
  exists a, st', tr2, l, rows; split=> // place cpos i hp hc.
  rewrite /= addn0 -(htr place cpos i hp hc) /cell_row; rewrite hl in hp.
  by rewrite (starts_at_cat hp hs).
Qed.
End Floor.
