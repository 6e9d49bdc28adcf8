(* C40: a circuit accepted by MockProver can be proven.  MockProver's verdict means that every trace of the
   circuit satisfies it; key generation and the prover synthesize the same circuit, and the table they make
   is such a trace, whatever the prover draws for the blinding rows. *)
Set Warnings "-notation-overridden,-ambiguous-paths".
From mathcomp Require Import all_ssreflect all_algebra.
From Coq Require Import Relation_Operators.
From Verif Require Import Util M_Env M_Assigned P_Assigned M_Circuit S_Circuit P_Circuit M_Selectors S_Selectors L_Selectors P_Selectors
  M_Copy L_Copy P_Copy M_Value M_Poly M_Domain P_Domain M_Transcript M_Commit M_Keys M_Permutation M_Plonk S_Plonk M_Assign M_Keygen M_Mock S_Floor S_Assign L_Assign P_Assign S_Mock L_Mock P_Mock L_MockRun.
Import GRing.Theory.
Set Implicit Arguments.
Unset Strict Implicit.
Local Open Scope ring_scope.

Section Verdict.
Variables (F : fieldType) (lt : rel F) (pr : mprover F).
Local Notation n := (mp_n pr).
Local Notation u := (mp_u pr).
Local Notation m := (mp_cs pr).

(* a trace satisfies the circuit *)
Record satisfied (n u : nat) (m : cs F) (calls : seq copy_call) (T : any -> nat -> nat -> F) : Prop := Satisfied {
  sat_gates : forall g gt, get (gates m) g = Some gt -> gate_holds n T gt;
  sat_lookups : forall l lk, get (lookups m) l = Some lk -> lookup_holds n u T lk;
  sat_copies : forall c, List.In c calls -> T (cc_lc c).1 (cc_lc c).2 (cc_lr c) = T (cc_rc c).1 (cc_rc c).2 (cc_rr c) }.

Lemma dedup_nil l : dedup l = [::] -> l = [::].
Proof. by case: l => //= a l; case: (dedup l) => // b r; case: ifP. Qed.
Lemma dedup_In f l : List.In f (dedup l) <-> List.In f l.
Proof.
elim: l => //= a l IH; case e: (dedup l) IH => [|b r] IH.
  by split=> [[->|//]|[->|/IH]]; by left.
case: ifP => hs; last by rewrite -IH.
have -> : List.In f l <-> List.In f (b :: r) by rewrite IH.
have eab : a = b by case: a b hs {e IH} => // g p [] //= g' p' /andP [/eqP -> /eqP ->].
by rewrite eab; split=> /= [[h|h]|[h|[h|h]]]; [left|right; right|left|left|right].
Qed.

(* If verify returns Ok, every trace of the circuit satisfies it. *)
Theorem C40_verify_sound calls T : mp_ok pr ->
  irreflexive lt -> transitive lt -> (forall x y, x != y -> lt x y || lt y x) ->
  mk_perm (mp_st pr) = (run_copies (assembly_new n (permutation m)) calls).1 ->
  (forall c, List.In c calls -> [&& cc_lc c \in permutation m, cc_rc c \in permutation m, (cc_lr c < u)%N & (cc_rr c < u)%N]) ->
  verify lt pr = Some [::] -> realises pr T -> satisfied n u m calls T.
Proof.
move=> ok l1 l2 l3 hp hc; rewrite /verify.
case: (selector_errors pr) => //= se; case eg: (gate_errors pr) => [ge|] //=.
case el: (lookup_errors lt pr) => [le|] //=; case ep: (perm_errors pr) => [pe|] //= [/dedup_nil].
case: se => //=; case: ge eg => //= eg; case: le el => //= el; case: pe ep => // ep _ hT; split.
- exact: (C37_sound ok eg hT).
- exact: (C38_sound ok l1 l2 l3 el hT).
- exact: (C39_traces ok hp hc ep hT).
Qed.

(* The only part of verify that can panic is the check that the cells of enabled gates are assigned. *)
Theorem C40_verify_panics calls : mp_ok pr ->
  irreflexive lt -> transitive lt -> (forall x y, x != y -> lt x y || lt y x) ->
  mk_perm (mp_st pr) = (run_copies (assembly_new n (permutation m)) calls).1 ->
  verify lt pr = None <-> selector_errors pr = None.
Proof.
move=> ok l1 l2 l3 hp; rewrite /verify; case: (selector_errors pr) => [se|] //=.
have [ge -> _] := gate_errorsP ok; have [pe -> _] := perm_errorsP ok hp.
rewrite /lookup_errors; have [i hi|es -> _] /= := @flat_mapiP _ _ (Lookup [::] [::]) (lookup_check lt pr) (lookups m); last by [].
by have [es e _] := C38_lookup ok l1 l2 l3 (getE (Lookup [::] [::]) hi); exists es.
Qed.
End Verdict.

Section Run.
Variable F : fieldType.

(* A configured circuit: the calls made on the constraint system, which give expressions of selectors, columns
   and queries of that system, columns that exist and rotations of at most 2^k rows; the characteristic of
   the field exceeds the degree. *)
Record configured (k : nat) (ops : seq (cs_op F)) (m : cs F) (D : nat) : Prop := Configured {
  cf_run : run_ops (cs_default F) ops = Some m;
  cf_built : ops_built [::] (cs_default F) ops;
  cf_exprs : ops_exprs_ok (cs_default F) ops;
  cf_within : queries_within (2 ^ k) m;
  cf_degree : cs_degree m = Some D;
  cf_char : forall i, (0 < i <= D)%N -> i%:R != 0 :> F }.

Section Ran.
Variables (k : nat) (ops : seq (cs_op F)) (m : cs F) (D : nat).
Hypothesis cf : configured k ops m D.
Variables (p : synth F) (instance : seq (seq F)) (pr : mprover F).
Variables (u : nat) (inst : seq (seq (option F))) (tr : seq (aop F)) (s : mock F) (polys : seq (seq F)).
Hypothesis mr : mock_ran k m p instance pr u inst tr s polys.
Local Notation n := (2 ^ k)%N.

Lemma u_n : (0 < u <= n)%N.
Proof.
have := mn_rows mr; rewrite (mn_u mr) leq_subr andbT subn_gt0 /minimum_rows => h.
by apply: leq_trans h; rewrite !addn1.
Qed.

(* compression of the selectors MockProver found *)
Lemma compressed : [/\ all (fun q => size q == n) polys, frame m (mp_cs pr) (size polys), cs_exprs_ok (mp_cs pr),
    List.Forall2 (fun g g' => List.Forall2 (fun e e' => selector_free e' /\
      same_constraint (mk_selectors s) polys (num_fixed m) n e e') (g_polys g) (g_polys g')) (gates m) (gates (mp_cs pr)) &
    List.Forall2 (fun l l' =>
      List.Forall2 (fun e e' => selector_free e' /\ same_value (mk_selectors s) polys (num_fixed m) n e e') (lk_input l) (lk_input l') /\
      List.Forall2 (fun e e' => selector_free e' /\ same_value (mk_selectors s) polys (num_fixed m) n e e') (lk_table l) (lk_table l'))
      (lookups m) (lookups (mp_cs pr))].
Proof.
have [sz rows] := ms_srect (mn_state mr).
have hb := C22_configured (cf_built cf) (cf_run cf).
have hall : all (fun a => size a == n) (mk_selectors s).
  by apply/(all_nthP [::]) => i hi; rewrite rows // -sz.
have [m' [polys' [e1 [h1 h2] [_ h3] [h4 h5] _]]] := C22_compress hb (cf_degree cf) (cf_char cf) sz hall.
have := mn_cs mr; rewrite e1 => -[em ep]; rewrite -em -ep; split=> //.
- exact/h3/(C21_expressions_stay_valid (cf_exprs cf) (cf_run cf)).
- by elim: h4 => [|g g' l l' [] ? ? ? _ IH]; constructor.
Qed.

Lemma F2_size (A B : Type) (R : A -> B -> Prop) (s1 : seq A) (s2 : seq B) : List.Forall2 R s1 s2 -> size s1 = size s2.
Proof. by elim=> //= a b l l' _ _ ->. Qed.
Lemma F2_all (A B : Type) (R : A -> B -> Prop) (P : pred B) (s1 : seq A) (s2 : seq B) : (forall a b, R a b -> P b) ->
  List.Forall2 R s1 s2 -> all P s2.
Proof. by move=> h; elim=> //= a b l l' /h -> _. Qed.

Lemma copies_within : forall c, List.In c (copies tr) ->
  [&& cc_lc c \in permutation m, cc_rc c \in permutation m, (cc_lr c < u)%N & (cc_rr c < u)%N].
Proof.
move=> c hc; have [hd1 hd2] := ms_perm (mn_state mr).
have [hr _] := C23_copies (permutation m) n (copies tr); rewrite hd2 in hr.
have e : expected (permutation m) n c = Ok tt.
  elim: (copies tr) hr hc => //= c' cs IH [e1 e2] [<-//|]; exact: IH.
move: e; rewrite /expected; case: ifP => // /andP [-> ->]; case: ifP => // _ _ /=.
have : List.In (ACopy F (cc_lc c) (cc_lr c) (cc_rc c) (cc_rr c)) tr.
  move: hc; rewrite /copies; elim: (tr) => //= o t IH; case: o => [||? ?|? ? ?|? ? ?|a b c1 d|? ? ?] /=; try by move=> /IH; right.
  by case=> [<-|/IH]; [left|right].
by move=> /(ms_rows (mn_state mr)) /=; rewrite andbT.
Qed.

(* the state after the run is as assumed in C37-C39 *)
Theorem C40_run_ok : mp_ok pr.
Proof.
have [hp fr he hg hl] := compressed; have st := mn_state mr; have [e1 e2 e3 e4 e5] := mn_pr mr.
have ef := mn_fixed mr; have hu := u_n; have [f1 f2] := ms_rect st; have [a1 a2] := ms_arect st.
have [i1 i2 i3] := mock_instances (mn_inst mr) (proj2 (andP hu)).
have [rf rfq [ra ri _] _ [rp _ _]] := fr.
split; rewrite ?e1 ?e2 ?e3 ?e4 ?e5 ?rf ?ra ?ri ?rp //.
- rewrite ef; split; first by rewrite size_cat size_map f1.
  move=> c hc; rewrite nth_cat f1; case: ltnP => h; first exact: f2.
  have hc' : (c - num_fixed m < size polys)%N by rewrite ltn_subLR.
  rewrite (nth_map [::]) // size_cat size_map size_nseq; have /all_nthP := hp => /(_ [::] _ hc') /eqP hs.
  by rewrite size_take hs ltnn subnn addn0.
- split; first by rewrite i1 (mn_size mr).
  move=> c hc; rewrite i3 ?(mn_size mr) // size_cat size_map size_nseq subnKC //.
  by apply: leq_trans (proj2 (andP hu)); apply: i2; rewrite (mn_size mr).
- move=> c row; rewrite ef nth_cat f1; case: ltnP => h.
    case: (ltnP row n) => hr; last by rewrite nth_default // f2.
    by have := ms_fixed st h hr; case: (fixed_written _ _ _ _) => [v [y _ ->]|->].
  case: (ltnP (c - num_fixed m) (size polys)) => hc; last by rewrite (nth_default [::]) ?size_map // nth_nil.
  rewrite (nth_map [::]) // nth_cat size_map; case: ltnP => hr; last by rewrite nth_nseq if_same.
  by rewrite (nth_map 0).
- move=> c row hc hr; have hrn := leq_trans hr (proj2 (andP hu)).
  by have := ms_advice st hc hrn; case: (advice_written _ _ _) => [v [y _ ->]|->] //; rewrite /blank_advice hr.
- exact: compress_within fr (cf_within cf).
- by apply: (F2_all _ hg) => g g' h; apply: (F2_all _ h) => e e' [].
- have ht := compress_tables (mn_cs mr) (reach_tables (cf_run cf)).
  have hb := C22_configured (cf_built cf) (cf_run cf); have /and4P [_ _ hlb _] := hb.
  rewrite /tables_fixed in ht; elim: hl hlb ht => //= l l' ls ls' [h1 h2] _ IH /andP [hlb b2] /andP [t1 t2].
  have /and3P [/eqP b1 _ _] := hlb; rewrite -(F2_size h1) -(F2_size h2) b1 eqxx t1 andbT /=.
  by rewrite (IH b2 t2) andbT; apply: (F2_all _ h1) => e e' [].
- have := reach_columns (cf_run cf) (cf_within cf); apply: sub_all => -[[] c] /=; rewrite ?rf ?ra ?ri //.
  by move=> h; apply: leq_trans h (leq_addr _ _).
- exists (copies tr); split; last exact: copies_within.
  by have [-> _] := ms_perm st.
Qed.
End Ran.
End Run.

(* ---------------------------------------------------------------- the same circuit in the prover *)

Section Same.
Variable F : fieldType.
Implicit Types (p kg : synth F).

(* kg is the synthesis of the circuit without witnesses that is given to key generation: when the queries
   of p are answered by ans and those of kg are not answered, the two make the same calls, up to the
   values given to advice cells *)
Fixpoint same_calls (ans : nat -> nat -> value F) p kg : Prop :=
  match p, kg with
  | SDone, SDone => True
  | SOp o k, SOp o' k' => alike o o' /\ same_calls ans k k'
  | SQuery c r k, SQuery c' r' k' => [/\ c = c', r = r' & same_calls ans (k (ans c r)) (k' (unknown))]
  | _, _ => False
  end.

(* every instance cell the synthesis queries is one of the values given by the user *)
Fixpoint queries_provided (instance : seq (seq F)) p : Prop :=
  match p with
  | SOp _ k => queries_provided instance k
  | SQuery c r k => if obind (fun col => get col r) (get instance c) is Some v
      then queries_provided instance (k (known v)) else False
  | _ => True
  end.

(* T is the table the prover works with: the fixed columns of the key, the synthesized advice columns with
   anything in the rows from u on, the instance columns padded with 0 *)
Definition prover_table (n u : nat) (fixed advice instance : seq (seq F)) (T : any -> nat -> nat -> F) : Prop :=
  [/\ forall c row, (c < size fixed)%N -> (row < n)%N -> T Fixed c row = nth 0 (nth [::] fixed c) row,
    forall c row, (c < size advice)%N -> (row < u)%N -> T Advice c row = nth 0 (nth [::] advice c) row &
    forall c row, (c < size instance)%N -> (row < n)%N -> T Instance c row = nth 0 (nth [::] instance c) row].

Section Sim.
Variables (u n : nat).
Hypothesis hu : (u <= n)%N.

Lemma keygen_sim nf ns inst p kg s a s' : sim n nf ns s a -> same_calls (mock_answers inst) p kg ->
  run_synth (mock_op u) (mock_query u inst) p s = Ok s' ->
  exists2 a', keygen_run u kg a = Ok a' & sim n nf ns s' a'.
Proof.
elim: p kg s a => [|e||o k IH|c r k IH] [|e'||o' k'|c' r' k'] //= s a S.
- by move=> _ [<-]; exists a.
- move=> [ho hk]; case e: (mock_op u o s) => [s1||] //= h.
  by have [a1 e1 S1] := sim_op hu S ho e; rewrite /keygen_run /= e1 /=; apply: IH S1 hk h.
- move=> [<- <- hk]; rewrite {1}/mock_query; case: ltnP => //= hr.
  case e: (obind _ _) => [v|] //= h; rewrite /keygen_run /= /keygen_query hr /=; apply: IH S _ h.
  by move: hk; rewrite /mock_answers e.
Qed.

Lemma fixed_advice c row v (s s' : mock F) : mock_fixed u c row v s = Ok s' -> mk_advice s' = mk_advice s.
Proof.
rewrite /mock_fixed; case: ltnP => //= hr; case: (v_assign _) => [x||] //=.
by case: (put2 _ _ _ _) => [f||] //= [<-].
Qed.
Lemma witness_sim na instance inst p s s' a : rectangle na n (mk_advice s) -> rectangle na n a ->
  queries_provided instance p ->
  (forall c r v, obind (fun col => get col r) (get instance c) = Some v ->
    obind (fun col => get col r) (get inst c) = Some (Some v)) ->
  run_synth (mock_op u) (mock_query u inst) p s = Ok s' ->
  (exists a', witness_run u instance p a = Ok a') /\ performed (mock_answers inst) p = performed (instance_of instance) p.
Proof.
move=> + + + hi; elim: p s a => [|e||o k IH|c r k IH] //= s a R1 R2.
- by move=> _ _; split=> //; exists a.
- move=> hk; case e: (mock_op u o s) => [s1||] //= h; rewrite /witness_run /=.
  have [a1 e1 [R1' R2']] : exists2 a1, witness_op u o a = Ok a1 & rectangle na n (mk_advice s1) /\ rectangle na n a1.
    case: o e => [||q row|c row v|c row v|c row c' row'|c from v] /=.
    + by case: (isSome _) => // -[<-]; exists a.
    + by case: (mk_current s) => [r|//] /= [<-]; exists a.
    + by case: ltnP => //= hr; case: (mk_current s) => [r|//] /=; case: (set2 _ _ _) => [sels|] //= [<-]; exists a.
    + case: ltnP => //= hr; rewrite /v_evaluate /v_assign; case: v => -[y|] //=.
      case e: (put2 _ _ _ _) => [ad||] //= [<-] /=; have [h1 h2 h3 _] := put2P R1 e.
      have [a1 e1] := put2_ok y R2 h1 h2; exists a1 => //; split=> //.
      by have [_ _ ? _] := put2P R2 e1.
    + by move=> /fixed_advice e; exists a => //; rewrite e.
    + by case: ifP => // _; case: (copy _ _ _ _ _) => p' [[]||] //= [<-]; exists a.
    + case: ltnP => //= hr e; exists a => //; suff -> : mk_advice s1 = mk_advice s by [].
      move: e; move: (drop _ _) => l; elim: l (s) => [|x l IHl] s0 /=; first by move=> [<-].
      by case e: (mock_fixed _ _ _ _ _) => [s2||] //= /IHl ->; apply: fixed_advice e.
  have [[a' h1] ->] := IH _ _ R1' R2' hk h; split=> //; exists a'.
  by rewrite e1.
- case e: (obind _ (get instance c)) => [v|] // hk; have e' := hi _ _ _ e.
  rewrite {1}/mock_query; case: ltnP => //= hr; rewrite e' /= => h.
  have [[a' h1] h2] := IH _ _ _ R1 R2 hk h.
  rewrite /witness_run /= /witness_query hr e /= /mock_answers /instance_of e e' /=.
  by split; [exists a'|].
Qed.
End Sim.

Lemma provided_same instance inst p kg : queries_provided instance p ->
  (forall c r v, obind (fun col => get col r) (get instance c) = Some v ->
    obind (fun col => get col r) (get inst c) = Some (Some v)) ->
  same_calls (instance_of instance) p kg -> same_calls (mock_answers inst) p kg.
Proof.
move=> + hi; elim: p kg => [|e||o k IH|c r k IH] [|e'||o' k'|c' r' k'] //= hp.
  by move=> [ho hk]; split=> //; exact: IH.
move: hp; case e: (obind _ (get instance c)) => [v|] // hk [h1 h2].
by rewrite /mock_answers /instance_of (hi _ _ _ e) e /= => h; split=> //; apply: IH hk h.
Qed.
Lemma performed_alike ans p kg tr : same_calls ans p kg -> performed ans p = Ok tr ->
  exists2 tr', performed (fun _ _ => unknown) kg = Ok tr' & List.Forall2 (@alike F) tr tr'.
Proof.
elim: p kg tr => [|e||o k IH|c r k IH] [|e'||o' k'|c' r' k'] //= tr.
- by move=> _ [<-]; exists [::].
- move=> [ho hk]; case e: (performed ans k) => [t||] //= [<-]; have [t' -> h] := IH _ _ hk e.
  by exists (o' :: t') => //; constructor.
- by move=> [_ _ hk] /(IH _ _ _ hk).
Qed.
End Same.

Section Main.
Variables (F B : fieldType) (G : lmodType F) (E : env B G) (ps : params G).
Variable digest : domain F -> seq G -> seq G -> cs F -> F.

(* If MockProver accepts a circuit with given instances, and the synthesis asks only for instance values
   which were given, then for keys of 2^k rows key generation synthesizes the circuit, the prover's synthesis
   succeeds, and its table satisfies every gate, lookup and copy constraint. *)
Theorem C40_accepted_can_be_proven k ops (m : cs F) D p kg instance pr (lt : rel F) d :
  configured k ops m D ->
  irreflexive lt -> transitive lt -> (forall x y, x != y -> lt x y || lt y x) ->
  mock_run k m p instance = Ok pr -> verify lt pr = Some [::] ->
  queries_provided instance p -> same_calls (instance_of instance) p kg ->
  p_n ps = (2 ^ k)%N -> d_n d = (2 ^ k)%N -> create_domain E ps m = Some d ->
  exists a fixed m' advice tr, let u := (2 ^ k - (blinding_factors m' + 1))%N in
   [/\ assemble ps d m kg = Ok a,
     fixed_columns d m a = Some (fixed, m'),
     performed (instance_of instance) p = Ok tr,
     forall vk, keygen_vk E ps digest m kg = Ok vk -> [/\ vk_cs vk = m', synthesize ps vk p instance = Ok advice &
       forall pk, keygen_pk E ps vk m kg = Ok pk -> pk_fixed_values pk = fixed] &
     forall T, prover_table (2 ^ k) u fixed advice instance T -> satisfied (2 ^ k) u m' (copies tr) T].
Proof.
move=> cf l1 l2 l3 hrun hv hp hs pn dn hd.
have [u [inst [tr [s [polys mr]]]]] := mock_runP hrun.
have ok := C40_run_ok cf mr; have hun := u_n mr; have hu : (u <= 2 ^ k)%N by case/andP: hun.
have [hall fr _ _ _] := compressed cf mr; have st := mn_state mr.
have [i1 i2 i3] := mock_instances (mn_inst mr) hu.
have hi c r v : obind (fun col => get col r) (get instance c) = Some v -> obind (fun col => get col r) (get inst c) = Some (Some v).
  case e: (get instance c) => [col|] //= e2; have [hc ec] := get_some e; have [hr er] := get_some e2.
  have ec' : nth [::] instance c = col by rewrite -[RHS]ec; apply: set_nth_default.
  rewrite (getE [::]) ?i1 //= i3 // ec' (getE None) ?size_cat ?size_map ?ltn_addr // nth_cat size_map hr (nth_map v) //.
  by rewrite er.
have S0 : sim (2 ^ k) (num_fixed m) (num_selectors m) (mock_new (2 ^ k) u m)
    (KAssembly (empty_assigned F (2 ^ k) (num_fixed m)) (assembly_new (2 ^ k) (permutation m)) (nseq (num_selectors m) (nseq (2 ^ k) false))).
  by split=> //; apply: rectangle_nseq.
have [a ha S] := keygen_sim hu S0 (provided_same hp hi hs) (mn_run mr).
have R0 : rectangle (num_advice m) (2 ^ k) (mk_advice (mock_new (2 ^ k) u m)).
  split=> [|c hc]; rewrite ?size_nseq // nth_nseq hc size_cat size_nseq size_map size_iota subnKC //.
have [[adv hadv] hperf] := witness_sim R0 (rectangle_nseq (num_advice m) (2 ^ k) (ATrivial (0 : F))) hp hi (mn_run mr).
have htr := mn_perf mr; have [tr2 htr2 hal] := performed_alike (provided_same hp hi hs) htr.
have [tr2' [htr2' ks _]] := C36_keygen hu ha; move: htr2'; rewrite htr2 => -[e2]; rewrite -{}e2 in ks => {tr2'}.
have [tr3 [htr3 ws _]] := C36_prover hadv; move: htr3; rewrite -hperf htr => -[e3]; rewrite -{}e3 in ws => {tr3}.
have [rf _ [ra ri _] [_ rnq _] [rp _ _]] := fr.
have ebf : blinding_factors (mp_cs pr) = blinding_factors m by rewrite /blinding_factors rnq.
have [e1 e2 e3 e4 e5] := mn_pr mr.
have hbf : (blinding_factors m + 1 <= 2 ^ k)%N by move: hun; rewrite (mn_u mr); case/andP; rewrite subn_gt0 => /ltnW.
have ess : mk_selectors s = ka_selectors a by case: S.
have hasm : assemble ps d m kg = Ok a.
  by rewrite /assemble pn dn ltnNge (mn_rows mr) /= /usable_rows hbf /= -(mn_u mr).
pose fixed := [seq [seq a_evaluate x | x <- col] | col <- ka_fixed a] ++ polys.
pose advice := [seq [seq a_evaluate x | x <- col] | col <- adv].
have hfix : fixed_columns d m a = Some (fixed, mp_cs pr).
  rewrite /fixed_columns C10_batch_invert_assigned /= -ess (mn_cs mr) /=.
  by have -> : all (fun q => size q == d_n d) polys by rewrite dn.
exists a, fixed, (mp_cs pr), advice, tr => /=; split=> //.
- move=> vk; rewrite /keygen_vk hd /= hasm /= hfix /=; case: (perm_build_vk _ _ _ _ _) => //= pc.
  case: (sequence _) => //= fc; rewrite /vk_from_parts; case: (cs_degree _) => //= dg [<-] /=; split=> //.
    by rewrite /synthesize /= pn dn /usable_rows ebf hbf /= -(mn_u mr) ra hadv /= C10_batch_invert_assigned.
  move=> pk; rewrite /keygen_pk /= hasm /= hfix /=.
  case: (sequence _) => //= fp; case: (sequence _) => //= fcs; case: (perm_build_pk _ _ _ _ _) => //= pp.
  move: (if _ then _ else None) => o0; case: o0 => //= l0; case: (to_coset E d _) => //= lb.
  by case: (obind _ _) => //= ll [<-].
rewrite ebf -(mn_u mr) => T [hT1 hT2 hT3].
have [kr1 kr2] := ks_rect ks; have [wr1 wr2] := ws_rect ws; have [mr1 mr2] := ms_rect st.
have -> : satisfied (2 ^ k) u = satisfied (mp_n pr) (mp_u pr) :> (cs F -> _) by rewrite e1 e2.
apply: (C40_verify_sound ok l1 l2 l3 _ _ hv).
- by rewrite e5 e1 rp; have [-> _] := ms_perm st.
- by move=> c hc; rewrite rp e2; apply: (copies_within mr).
move=> t c row; rewrite e1; case: t => /= hc hr.
- rewrite e4; rewrite ra in hc; have := ms_advice st hc hr; have := ws_advice ws hc hr.
  case: (ltnP row u) => hru; last first.
    rewrite /blank_advice ltnNge hru /=; case: (advice_written _ _ _) (@unwritten_advice _ u _ (ws_rows ws) c row hru) => //= _ _ -> //.
  rewrite hT2 ?size_map ?wr1 // (nth_map [::]) ?wr1 // (nth_map (ATrivial 0)) ?wr2 //.
  case: (advice_written _ _ _) => [v|] /=; first by move=> -> [y [->] ->].
  by rewrite /blank_advice hru => -> ->.
- rewrite (mn_fixed mr) hT1 ?size_cat ?size_map ?kr1 -?rf // !nth_cat size_map kr1 mr1; case: ltnP => hcf.
    have := ms_fixed st hcf hr; have := ks_fixed ks hcf hr; rewrite -(alike_fixed u hal).
    rewrite (nth_map [::]) ?kr1 // (nth_map (ATrivial 0)) ?kr2 //.
    by case: (fixed_written _ _ _ _) => [v|] /=; [move=> -> [y [->] ->]|move=> -> ->].
  have hc' : (c - num_fixed m < size polys)%N by rewrite ltn_subLR // -rf.
  have /all_nthP := hall => /(_ [::] _ hc') /eqP hsz.
  by rewrite (nth_map [::]) // nth_cat size_map take_oversize ?hsz // hr (nth_map 0) ?hsz.
- rewrite e3; rewrite ri -(mn_size mr) in hc; rewrite hT3 // i3 // nth_cat size_map; case: ltnP => hri.
    by rewrite (nth_map 0).
  by rewrite nth_nseq if_same /= nth_default.
Qed.
End Main.

(* ---------------------------------------------------------------- the hypotheses are needed *)

Section Refuted.
Variables (F B : fieldType) (G : lmodType F) (ps : params G) (lt : rel F).
Hypothesis char3 : forall i, (0 < i <= 3)%N -> i%:R != 0 :> F.

(* one advice column, one instance column; eq: the advice column takes part in copies *)
Definition small_ops (eq : bool) : seq (cs_op F) :=
  [:: OAdviceColumn F; OInstanceColumn F] ++ (if eq then [:: OEnableEquality F (Advice, 0%N)] else [::]).
Definition small_cs eq : cs F := odflt (cs_default F) (run_ops (cs_default F) (small_ops eq)).
Lemma small_configured eq : configured 3 (small_ops eq) (small_cs eq) 3.
Proof. by case: eq; (split; last exact: char3); vm_compute. Qed.

(* copies the instance value at row r to the advice column *)
Definition copy_instance (r : nat) : synth F :=
  SOp (AEnter F) (SQuery 0 r (fun v => SOp (AAdvice 0 0 (Value (omap (@ATrivial F) (inner v)))) (SOp (AExit F) (SDone F)))).

(* C40 as first stated does not hold: when the synthesis asks for an instance cell beyond those given,
   MockProver answers 0 and accepts, while the prover's synthesis fails. *)
Theorem C40_padding_refuted (x : F) : p_n ps = 8%N ->
  exists pr, [/\ configured 3 (small_ops false) (small_cs false) 3,
    mock_run 3 (small_cs false) (copy_instance 1) [:: [:: x]] = Ok pr, verify lt pr = Some [::],
    same_calls (instance_of [:: [:: x]]) (copy_instance 1) (copy_instance 1) &
    forall vk : vkey G, vk_cs vk = mp_cs pr -> synthesize ps vk (copy_instance 1) [:: [:: x]] = Err EBoundsFailure].
Proof.
move=> pn; eexists; split; [exact: small_configured|vm_compute; reflexivity|vm_compute; reflexivity|by do ! split|].
by move=> vk e; rewrite /synthesize e pn.
Qed.

(* The converse does not hold either: the copy of a cell that is never assigned, which the prover fills with 0,
   to a cell that holds 0. *)
Definition copy_unassigned : synth F :=
  SOp (AEnter F) (SOp (AAdvice 0 0 (known (ATrivial 0))) (SOp (ACopy F (Advice, 0%N) 0 (Advice, 0%N) 1)
    (SOp (AExit F) (SDone F)))).
Theorem C39_unassigned_refuted : exists pr, [/\ configured 3 (small_ops true) (small_cs true) 3,
    mock_run 3 (small_cs true) copy_unassigned [:: [::]] = Ok pr,
    verify lt pr = Some [:: VPermutation (Advice, 0%N) 0; VPermutation (Advice, 0%N) 1] &
    forall T, realises pr T -> satisfied 8 2 (mp_cs pr) [:: CopyCall (Advice, 0%N) 0 (Advice, 0%N) 1] T].
Proof.
eexists; split; [exact: small_configured|vm_compute; reflexivity|vm_compute; reflexivity|].
move=> T hT; split=> [g gt|l lk|c] /=; [by case: g|by case: l|].
case=> // <- /=; have := hT Advice 0%N 0%N isT isT; have := hT Advice 0%N 1%N isT isT => /= -> ->.
by [].
Qed.
End Refuted.

Print Assumptions C40_verify_sound.
Print Assumptions C40_verify_panics.
Print Assumptions C40_run_ok.
Print Assumptions C40_accepted_can_be_proven.
Print Assumptions C40_padding_refuted.
Print Assumptions C39_unassigned_refuted.
