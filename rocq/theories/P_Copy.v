(* C23: copy constraints accumulate to exactly their equivalence closure. *)
Set Warnings "-notation-overridden,-ambiguous-paths".
From mathcomp Require Import all_ssreflect perm all_algebra fingraph.
From Coq Require Import Relation_Operators.
From Verif Require Import Util M_Env M_Circuit M_Copy L_Copy.
Set Implicit Arguments.
Unset Strict Implicit.

(* What a user asked for: the two cells of a call that names columns of the permutation and
   rows inside the domain. *)
Definition call_in_range (columns : seq column) (n : nat) (c : copy_call) : bool :=
  [&& cc_lc c \in columns, cc_rc c \in columns, cc_lr c < n & cc_rr c < n].
Definition linked (columns : seq column) (n : nat) (calls : seq copy_call) (x y : cell) : Prop :=
  exists2 c, List.In c calls & call_in_range columns n c /\
    x = (index (cc_lc c) columns, cc_lr c) /\ y = (index (cc_rc c) columns, cc_rr c).
(* the Result of a call *)
Definition expected (columns : seq column) (n : nat) (c : copy_call) : res unit :=
  if (cc_lc c \in columns) && (cc_rc c \in columns) then
    if (cc_lr c < n) && (cc_rr c < n) then Ok tt else Err EBoundsFailure
  else Err EColumnNotInPermutation.

Section Inv.
Variables (columns : seq column) (n : nat).
Notation m := (size columns).
Notation T := ('I_m * 'I_n)%type.

Record inv (a : assembly) (lk : T -> T -> Prop) : Prop := Inv {
  i_cols : a_columns a = columns;
  i_sizes : exists f, rep (m := m) (n := n) (a_sizes a) f;
  i_map : exists (s g : T -> T),
    [/\ injective s, rep (a_mapping a) (@vc m n \o s), rep (a_aux a) (@vc m n \o g),
        forall z, g (s z) = g z & forall z, fconnect s z (g z)] /\
    forall x y, fconnect s x y <-> clos_refl_sym_trans T lk x y }.

Lemma clos_iff (lk1 lk2 : T -> T -> Prop) :
  (forall x y, lk1 x y -> clos_refl_sym_trans T lk2 x y) ->
  forall x y, clos_refl_sym_trans T lk1 x y -> clos_refl_sym_trans T lk2 x y.
Proof.
move=> H x y; elim=> [p q h|p|p q _ h|p q r _ h1 _ h2].
- exact: H.
- exact: rst_refl.
- exact: rst_sym.
exact: rst_trans h1 h2.
Qed.

Lemma inv_iff a (lk1 lk2 : T -> T -> Prop) :
  (forall x y, lk1 x y -> clos_refl_sym_trans T lk2 x y) ->
  (forall x y, lk2 x y -> clos_refl_sym_trans T lk1 x y) -> inv a lk1 -> inv a lk2.
Proof.
move=> h1 h2 [? ? [s [g [H1 H2]]]]; split=> //; exists s, g; split=> // x y.
by split=> [/H2|h]; [exact: clos_iff|apply/H2; exact: clos_iff h].
Qed.

Lemma inv_new : inv (assembly_new n columns) (fun _ _ => False).
Proof.
have rid : rep (m := m) (n := n) [seq [seq (i, j) | j <- iota 0 n] | i <- iota 0 m] (@vc m n \o id).
  have e i : i < m -> nth [::] [seq [seq (i, j) | j <- iota 0 n] | i <- iota 0 m] i =
                      [seq (i, j) | j <- iota 0 n].
    by move=> hi; rewrite (nth_map 0) ?size_iota // nth_iota.
  split=> [|i hi|[[i hi] [j hj]]].
  - by rewrite size_map size_iota.
  - by rewrite e // size_map size_iota.
  rewrite (get2E (0, 0)) /= ?size_map ?size_iota // ?e ?size_map ?size_iota //.
  by rewrite (nth_map 0) ?size_iota // nth_iota.
split=> //=.
  exists (fun _ => 1); split=> [|i hi|[[i hi] [j hj]]]; rewrite ?size_nseq //.
    by rewrite nth_nseq hi size_nseq.
  by rewrite (get2E 0) /= ?nth_nseq ?size_nseq ?hi ?size_nseq // nth_nseq hj.
exists id, id; split; first by split=> // z; exact: connect0.
have conn0 (x y : T) : fconnect id x y -> x = y.
  by move/iter_findex => <-; elim: (findex _ _ _).
move=> x y; split=> [/conn0 ->|]; first exact: rst_refl.
by elim=> [//|p|p q _ /conn0 ->|p q r _ /conn0 -> _ /conn0 ->].
Qed.

Definition cell_link (c : copy_call) (x y : T) : Prop :=
  call_in_range columns n c /\
  vc x = (index (cc_lc c) columns, cc_lr c) /\ vc y = (index (cc_rc c) columns, cc_rr c).

Lemma inv_copy a lk c : inv a lk ->
  let r := do_copy a c in
  r.2 = expected columns n c /\ inv r.1 (fun x y => lk x y \/ cell_link c x y).
Proof.
move=> I; case: (I) => ic [f rs] [s [g [[s_inj rm ra g_edge g_rep] hclos]]] r.
have skip : ~~ call_in_range columns n c -> inv a (fun x y => lk x y \/ cell_link c x y).
  move=> h; apply: inv_iff I => x y; first by move=> ?; apply: rst_step; left.
  by case=> [|[hr]]; [exact: rst_step|case/negP: h].
rewrite {}/r /do_copy /copy /position ic /expected.
have hd : call_in_range columns n c =
  [&& (cc_lc c \in columns) && (cc_rc c \in columns) & (cc_lr c < n) && (cc_rr c < n)].
  by rewrite /call_in_range !andbA.
case hl: (cc_lc c \in columns); last by split=> //; apply: skip; rewrite hd hl.
case hr: (cc_rc c \in columns); last by split=> //; apply: skip; rewrite hd hl hr.
rewrite !andTb; case: (rm) => sm sr _.
have il : index (cc_lc c) columns < m by rewrite index_mem.
have ir : index (cc_rc c) columns < m by rewrite index_mem.
rewrite sm il ir /= !sr // ![n <= _]leqNgt.
case: (ltnP (cc_lr c) n) => hlr /=; last by split=> //; apply: skip; rewrite hd ltnNge hlr !andbF.
case: (ltnP (cc_rr c) n) => hrr /=; last by split=> //; apply: skip; rewrite hd [cc_rr c < n]ltnNge hrr !andbF.
have [l el] := @vcP m n (index (cc_lc c) columns, cc_lr c) il hlr.
have [rr er] := @vcP m n (index (cc_rc c) columns, cc_rr c) ir hrr.
rewrite el er.
have hrange : call_in_range columns n c by rewrite hd hl hr hlr hrr.
have linkE x y : cell_link c x y <-> x = l /\ y = rr.
  rewrite /cell_link el er; split=> [[_ [/vc_inj -> /vc_inj ->]]|[-> ->]] //.
case: (ra) => _ _ ga; rewrite (ga l) (ga rr) /comp [obind _ _]/= [obind _ _]/= (inj_eq (@vc_inj m n)).
rewrite (@g_eq _ s s_inj g g_edge g_rep).
case: ifPn => hc.
  split=> //; apply: inv_iff I => x y; first by move=> ?; apply: rst_step; left.
  case=> [|/linkE [-> ->]]; [exact: rst_step|by apply/hclos].
case: (rs) => _ _ gs; rewrite (gs (g l)) (gs (g rr)) [obind _ _]/=.
(* the two orientations *)
have step p q : (p = l /\ q = rr) \/ (p = rr /\ q = l) -> 
  let res := obind (fun sl => obind (fun sr =>
      obind (fun sizes =>
      obind (fun aux =>
      obind (fun tmp => obind (fun mr =>
      obind (fun mapping =>
      omap (fun mapping =>
        {| a_columns := columns; a_mapping := mapping; a_aux := aux; a_sizes := sizes |})
      (set2 mapping (vc rr) tmp))
      (set2 (a_mapping a) (vc l) mr))
      (get2 (a_mapping a) (vc rr))) (get2 (a_mapping a) (vc l)))
      (relabel (size (flatten (a_mapping a))) (a_mapping a) (a_aux a)
               (vc (g q)) (vc (g p)) (vc (g q))))
      (set2 (a_sizes a) (vc (g p)) (sl + sr)))
      (get2 (a_sizes a) (vc (g q)))) (get2 (a_sizes a) (vc (g p))) in
  exists2 a', res = Some a' & inv a' (fun x y => lk x y \/ cell_link c x y).
  move=> hpq.
  have npq : ~~ fconnect s p q by case: hpq => -[-> ->] //; rewrite fconnect_sym.
  rewrite !gs [obind _ _]/= [obind _ _]/=.
  have [sizes' -> rs'] := set2_rep (g p) (f (g p) + f (g q)) rs; rewrite [obind _ _]/=.
  have hfuel : m * n <= size (flatten (a_mapping a)).
    rewrite size_flatten (_ : shape _ = nseq m n) ?sumn_nseq 1?mulnC //.
    apply: (@eq_from_nth _ 0); first by rewrite size_map size_nseq.
    by move=> i; rewrite size_map sm => hi; rewrite (nth_map [::]) ?sm // nth_nseq hi sr.
  have [aux' -> ra'] := relabel_cycle s_inj rm (g q) (vc (g p)) hfuel ra; rewrite [obind _ _]/=.
  case: (rm) => _ _ gm; rewrite !gm [obind _ _]/= [obind _ _]/=.
  have [map1 -> rm1] := set2_rep l (vc (s rr)) rm; rewrite [obind _ _]/=.
  have [map2 -> rm2] := set2_rep rr (vc (s l)) rm1; rewrite [omap _ _]/=.
  eexists; first by [].
  split=> //=; first by exists (fun z => if z == g p then f (g p) + f (g q) else f z).
  exists (swapped s p q), (relabelled s p q g); split.
    split.
    - exact: swapped_inj.
    - apply: rep_ext rm2 => z /=; rewrite /swapped.
      have -> : tperm p q z = tperm l rr z by case: hpq => -[-> ->] //; rewrite tpermC.
      case: tpermP => [->|->|/eqP/negbTE -> /eqP/negbTE ->] //; rewrite ?eqxx //.
      by case: (eqVneq l rr) => [->|].
    - by apply: rep_ext ra' => z /=; rewrite /relabelled; case: ifP.
    - exact: relabelled_edge.
    exact: relabelled_rep.
  move=> x y; rewrite (swapped_clos s_inj npq hclos).
  split; apply: clos_iff => u v [h|].
  - by apply: rst_step; left.
  - case=> -> ->; case: hpq => -[-> ->]; [|apply: rst_sym]; apply: rst_step; right; exact/linkE.
  - by apply: rst_step; left.
  case/linkE => -> ->; case: hpq => -[<- <-]; [|apply: rst_sym]; apply: rst_step; by right.
case: ifP => _.
  by have [a' -> ia] := step rr l (or_intror (conj erefl erefl)).
by have [a' -> ia] := step l rr (or_introl (conj erefl erefl)).
Qed.

Lemma inv_run calls a lk : inv a lk ->
  let r := run_copies a calls in
  r.2 = [seq expected columns n c | c <- calls] /\
  inv r.1 (fun x y => lk x y \/ exists2 c, List.In c calls & cell_link c x y).
Proof.
elim: calls a lk => [|c calls IH] a lk I /=.
  by split=> //; apply: inv_iff I => x y h; [apply: rst_step; left|case: h => [|[]//]; exact: rst_step].
have := inv_copy c I; case: (do_copy a c) => a1 r /= [-> I1].
have := IH _ _ I1; case: (run_copies a1 calls) => a2 rs /= [-> I2]; split=> //.
apply: inv_iff I2 => x y h; apply: rst_step.
  case: h => [[h|h]|[c' hc h]]; [by left|right; exists c => //; by left|right; exists c' => //; by right].
case: h => [h|[c' [<-|hc] h]]; [by left; left|by left; right|by right; exists c'].
Qed.
End Inv.

(* The state and the Results after any sequence of calls, successful or not.  [get2 mapping]
   is the stored next-cell function. *)
Theorem C23_copies : forall (columns : seq column) (n : nat) (calls : seq copy_call),
  let r := run_copies (assembly_new n columns) calls in
  let valid (c : cell) := (c.1 < size columns) && (c.2 < n) in
  let next c := get2 (a_mapping r.1) c in
  r.2 = [seq expected columns n c | c <- calls] /\
  (forall c, valid c -> exists2 d, next c = Some d & valid d) /\
  (forall c d, valid c -> valid d -> next c = next d -> c = d) /\
  (forall c d, valid c -> valid d ->
     ((exists k, iter k (obind next) (Some c) = Some d) <->
      clos_refl_sym_trans cell (linked columns n calls) c d)).
Proof.
move=> columns n calls r valid next.
have [hr [_ _ [s [g [[s_inj [_ _ rm] _ _ _] hclos]]]]] := inv_run calls (inv_new columns n).
have vv x : valid (@vc (size columns) n x) by case: x => -[i hi] [j hj]; rewrite /valid /= hi hj.
have nx x : next (@vc (size columns) n x) = Some (vc (s x)) by rewrite /next rm.
split=> //; split; [|split].
- by move=> c /andP [h1 h2]; have [x ->] := vcP h1 h2; exists (vc (s x)).
- move=> c d /andP [h1 h2] /andP [h3 h4].
  have [x ->] := vcP h1 h2; have [y ->] := vcP h3 h4.
  by rewrite !nx => -[] /val_inj e1 /val_inj e2; congr vc; apply: s_inj; case: (s x) (s y) e1 e2 => [? ?] [? ?] /= -> ->.
move=> c d /andP [h1 h2] /andP [h3 h4].
have [x ->] := vcP h1 h2; have [y ->] := vcP h3 h4.
have itn k : iter k (obind next) (Some (vc x)) = Some (vc (iter k s x)).
  by elim: k => //= k ->; rewrite /= nx.
have -> : (exists k, iter k (obind next) (Some (vc x)) = Some (vc y)) <-> fconnect s x y.
  split=> [[k]|/iter_findex e]; last by exists (findex s x y); rewrite itn e.
  by rewrite itn => -[] /val_inj e1 /val_inj e2; rewrite (_ : y = iter k s x) ?fconnect_iter //;
     case: (iter k s x) y e1 e2 {h3 h4} => [? ?] [? ?] /= -> ->.
rewrite hclos; split.
  elim=> [p q [//|[c1 hc [h5 [h6 h7]]]]|p|p q _ h|p q t _ h5 _ h6].
  - by apply: rst_step; exists c1.
  - exact: rst_refl.
  - exact: rst_sym.
  exact: rst_trans h5 h6.
suff: forall c1 d1, clos_refl_sym_trans cell (linked columns n calls) c1 d1 ->
  c1 = d1 \/ exists x1 y1, [/\ c1 = vc x1, d1 = vc y1 & clos_refl_sym_trans _
    (fun x0 y0 : 'I_(size columns) * 'I_n => False \/ exists2 c : copy_call, List.In c calls & cell_link c x0 y0) x1 y1].
  move=> H /H [/vc_inj ->|[x1 [y1 [/vc_inj -> /vc_inj -> //]]]]; exact: rst_refl.
move=> c1 d1; elim=> [p q [c2 hc [h5 [h6 h7]]]|p|p q _ h|p q t _ h5 _ h6].
- right; case/and4P: (h5) => a1 a2 a3 a4; rewrite -index_mem in a1; rewrite -index_mem in a2.
  have [x1 e1] := @vcP (size columns) n p ltac:(by rewrite h6) ltac:(by rewrite h6).
  have [y1 e2] := @vcP (size columns) n q ltac:(by rewrite h7) ltac:(by rewrite h7).
  exists x1, y1; split=> //; apply: rst_step; right; exists c2 => //; split=> //; by rewrite -e1 -e2.
- by left.
- case: h => [->|[x1 [y1 [-> -> h]]]]; [by left|right; exists y1, x1; split=> //; exact: rst_sym].
case: h5 => [->|[x1 [y1 [-> e h5]]]] //; case: h6 => [<-|[x2 [y2 [e1 -> h6]]]].
  by right; exists x1, y1.
right; exists x1, y2; split=> //; apply: rst_trans h5 _.
by move: e1; rewrite e => /vc_inj ->.
Qed.
Print Assumptions C23_copies.

(* On any assembly at all, a call that does not succeed leaves it as it was. *)
Theorem C23_failed_copy_changes_nothing : forall (a : assembly) (c : copy_call),
  (do_copy a c).2 <> Ok tt -> (do_copy a c).1 = a.
Proof.
move=> a c; rewrite /do_copy /copy; case: position => [lc|//]; case: position => [rc|//].
by case: ifP => // _; case: ifP => // _; case: (obind _ _).
Qed.
Print Assumptions C23_failed_copy_changes_nothing.

(* three columns of four rows; two copies that join three cells, one of them repeated, one
   to an unknown column and one to a row out of range *)
Example C23_example :
  let A := (Advice, 0) in let B := (Advice, 1) in let C := (Fixed, 0) in
  let r := run_copies (assembly_new 4 [:: A; B; C])
    [:: CopyCall A 0 B 2; CopyCall B 2 C 3; CopyCall C 3 A 0; CopyCall (Fixed, 7) 0 A 0;
        CopyCall A 1 B 4] in
  r.2 = [:: Ok tt; Ok tt; Ok tt; Err EColumnNotInPermutation; Err EBoundsFailure] /\
  [seq get2 (a_mapping r.1) c | c <- [:: (0, 0); (1, 2); (2, 3); (0, 1)]] =
  [seq Some c | c <- [:: (1, 2); (2, 3); (0, 0); (0, 1)]].
Proof. by vm_compute. Qed.
