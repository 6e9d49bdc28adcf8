(* Lemmas for C40: MockProver::run, and the synthesis of the same circuit in key generation and in the
   prover. *)
Set Warnings "-notation-overridden,-ambiguous-paths".
From mathcomp Require Import all_ssreflect all_algebra.
From Coq Require Import Relation_Operators.
From Verif Require Import Util M_Env M_Assigned P_Assigned M_Circuit S_Circuit P_Circuit M_Selectors S_Selectors L_Selectors P_Selectors
  M_Copy L_Copy P_Copy M_Value M_Plonk S_Plonk M_Assign M_Mock S_Floor S_Assign L_Assign P_Assign S_Mock L_Mock P_Mock.
Import GRing.Theory.
Set Implicit Arguments.
Unset Strict Implicit.
Local Open Scope ring_scope.

Section Tables.
Variable F : fieldType.
Implicit Types (m : cs F).

(* the table side of every lookup consists of queries of fixed columns *)
Definition tables_fixed m : bool := all (fun l => all (@is_fixed_query F) (lk_table l)) (lookups m).

(* the allocating closure does not touch the lookups *)
Lemma process_inv (S : Type) (alloc : S -> S * expr F) (P : S -> Prop) md sels s0 st :
  (forall s, P s -> P (alloc s).1) -> P s0 -> process alloc md sels s0 = Some st -> P (p_s st).
Proof.
move=> ha h0; rewrite /process; case: sels => [[<-] //|x sels]; case: ifP => // _.
set xs := x :: sels; set st0 := foldl _ _ _.
have : P (p_s st0).
  rewrite /st0; set st1 := PSt _ _ _; have : P (p_s st1) by []; elim: (xs) st1 => //= y ys IH st1 h1.
  by apply: IH; rewrite /retain_step; case: ifP => // _; have := ha _ h1; case: (alloc _) => s' e.
move: (zip _ _) (nseq _ _) st0 => l; elim: l => [|[i s] l IH] added st0 /=; first by move=> h [<-].
case: (get added i) => //= -[]; first exact: IH.
move=> h; case: ifP => // _; case: ifP => // _; case: (try_selectors _ _ _ _ _ _ _) => //= r.
have := ha _ h; case: (alloc _) => s' e /= h'; case: (assign_members _ _ _ _ _ _) => //= ca; exact: IH.
Qed.
Lemma obind_inv (A B : Type) (f : A -> option B) x y : obind f x = Some y -> exists a, x = Some a /\ f a = Some y.
Proof. by case: x => //= a h; exists a. Qed.
Lemma compress_tables m acts m' polys : compress_selectors m acts = Some (m', polys) ->
  tables_fixed m -> tables_fixed m'.
Proof.
rewrite /compress_selectors; case: ifP => // _; case: (selector_degrees _ _) => //= degs.
case: (cs_degree m) => //= D; case e: (process _ _ _ _) => [st|] //= h hm.
have hl : lookups (p_s st).1 = lookups m.
  apply: (process_inv (P := fun s : cs F * seq nat => lookups s.1 = lookups m)) e => // s <-.
  by rewrite /alloc_fixed /query_fixed_index /=; case: (find_query _ _).
move: h; case: (p_s st) hl => m1 cols /= hl.
move=> h; have [repl [_ {}h]] := obind_inv h; have [smap [_ {}h]] := obind_inv h.
have [gs [_ {}h]] := obind_inv h; have [ls [e2 [<- _]]] := obind_inv h.
rewrite /tables_fixed /=; move: hm; rewrite /tables_fixed -hl.
have {e2 h} := all_some_inv e2; elim=> //= l l' ls1 ls2 hl' _ IH /andP [h1 /IH ->]; rewrite andbT.
have [i [_ {}hl']] := obind_inv hl'; move: hl'; case e3: (all_some _) => [t|] //= [<-] /=.
have {e3} := all_some_inv e3; elim: (lk_table l) t h1 => [|x xs IH2] t /= hx h; first by inversion h.
inversion h as [|? y ? t' hy ht]; subst; case/andP: hx => hx /IH2 k; rewrite /= (k _ ht) andbT.
by case: x hx hy {h} => //= a b c _ [<-].
Qed.

(* every constraint system made by calls has such lookups *)
Lemma reach_tables ops m : run_ops (cs_default F) ops = Some m -> tables_fixed m.
Proof.
have qf m0 c : lookups (query_fixed_index m0 c).1 = lookups m0 by rewrite /query_fixed_index; case: (find_query _ _).
have qa m0 c r m2 i : query_advice_index m0 c r = Some (m2, i) -> lookups m2 = lookups m0.
  by rewrite /query_advice_index; case: (find_query _ _) => [j [<-]|] //; case: ifP => // _ [<-].
have qi m0 c r : lookups (query_instance_index m0 c r).1 = lookups m0 by rewrite /query_instance_index; case: (find_query _ _).
have ee m0 c m2 : enable_equality m0 c = Some m2 -> lookups m2 = lookups m0.
  rewrite /enable_equality; case eq: (query_any_index m0 c 0) => [[m3 i]|] //= [<-].
  have <- : lookups m3 = lookups m0; last by case: ifP.
  move: eq; rewrite /query_any_index; case: c => -[] c /=; [exact: qa| |].
  - by move=> [e]; have := qf m0 c; rewrite e.
  - by move=> [e]; have := qi m0 c 0; rewrite e.
have : tables_fixed (cs_default F) by [].
elim: ops (cs_default F) => [|o ops IH] m0 h0 /=; first by move=> [<-].
case e: (run_op m0 o) => [m1|] //=; apply: IH.
case: o e => [b||||c|c r|c r|c|c|tm|g|d] /=.
- by move=> [<-].
- by move=> [<-].
- by move=> [<-].
- by move=> [<-].
- by move=> [<-]; rewrite /tables_fixed qf.
- by case eq: (query_advice_index _ _ _) => [[m3 i]|] //= [<-] /=; rewrite /tables_fixed (qa _ _ _ _ _ eq).
- by move=> [<-]; rewrite /tables_fixed qi.
- by move=> /ee; rewrite /tables_fixed => ->.
- by rewrite /enable_constant; case: ifP => _; [move=> [<-]|move=> /ee; rewrite /tables_fixed => ->].
- rewrite /add_lookup; set step := (X in foldl X).
  case e: (foldl step _ _) => [acc|] //= [<-]; rewrite /tables_fixed /= all_rcons /=.
  suff [-> ->] : lookups acc.1 = lookups m0 /\ all (@is_fixed_query F) (unzip2 acc.2) by [].
  have nn t : foldl step None t = None by elim: t.
  have : lookups (m0, [::] : seq (expr F * expr F)).1 = lookups m0 /\ all (@is_fixed_query F) (unzip2 (m0, [::] : seq (expr F * expr F)).2) by [].
  move: e; move: (m0, [::] : seq (expr F * expr F)) => acc0; elim: tm acc0 => [|x tm IH2] acc0 /=; first by move=> [<-].
  case: ifP => [_|_]; first by rewrite nn.
  move=> /IH2 h [h1 h2]; apply: h; rewrite /= -h1; split.
    by rewrite /query_fixed_index; case: (find_query _ _).
  by rewrite /unzip2 map_rcons all_rcons.
- by rewrite /create_gate; case: (g_polys g) => // x l [<-].
- by move=> [<-].
Qed.
End Tables.

Section Run.
Variable F : fieldType.
Implicit Types (m : cs F).

Lemma compress_within (n new : nat) m m' : frame m m' new -> queries_within n m -> queries_within n m'.
Proof.
move=> fr /and3P [qf qa qi]; have [ef efq [ea ei _] [eqa _ eqi] _] := fr.
rewrite /queries_within ef efq ea ei eqa eqi qa qi !andbT all_cat; apply/andP; split.
- by apply: sub_all qf => q /andP [h ->]; rewrite (leq_trans h (leq_addr _ _)).
- by rewrite all_map; apply/allP => i; rewrite mem_iota /= add0n => hi; rewrite ltn_add2l hi.
Qed.

(* the columns of the permutation have been queried *)
Lemma reach_columns ops m n : run_ops (cs_default F) ops = Some m -> queries_within n m ->
  all (fun c : column => (c.2 < ncols m c.1)%N) (permutation m).
Proof.
move=> h /and3P [/allP qf /allP qa /allP qi]; have [_ _ _ hp] := C21_query_no_panic h.
apply/allP => -[t c] /hp; rewrite /get_any_query_index; case: t => /=.
- rewrite /get_advice_query_index find_queryP; case: ifP => // /qa /andP [] //.
- rewrite /get_fixed_query_index find_queryP; case: ifP => // /qf /andP [] //.
- rewrite /get_instance_query_index find_queryP; case: ifP => // /qi /andP [] //.
Qed.

Lemma mock_instances (n u : nat) (instance : seq (seq F)) inst : rmap (mock_instance n u) instance = Ok inst ->
  (u <= n)%N -> [/\ size inst = size instance,
    forall c, (c < size instance)%N -> (size (nth [::] instance c) <= u)%N &
    forall c, (c < size instance)%N -> nth [::] inst c =
      [seq Some v | v <- nth [::] instance c] ++ nseq (n - size (nth [::] instance c)) None].
Proof.
elim: instance inst => [|v l IH] inst /=; first by move=> [<-].
rewrite /mock_instance; case: ltnP => //= hv; case e: (rmap _ _) => [inst'||] //= [<-] hu.
have [h1 h2 h3] := IH _ e hu; split=> /= [|[|c] //|[|c] //]; [by rewrite h1|exact: h2|exact: h3].
Qed.

(* what MockProver::run leaves behind *)
Record mock_ran (k : nat) m (p : synth F) instance pr (u : nat) inst tr s polys : Prop := MockRan {
  mn_rows : (minimum_rows m <= 2 ^ k)%N;
  mn_size : size instance = num_instance m;
  mn_u : u = (2 ^ k - (blinding_factors m + 1))%N;
  mn_inst : rmap (mock_instance (2 ^ k) u) instance = Ok inst;
  mn_run : run_synth (mock_op u) (mock_query u inst) p (mock_new (2 ^ k) u m) = Ok s;
  mn_perf : performed (mock_answers inst) p = Ok tr;
  mn_state : mstate u (2 ^ k) (num_fixed m) (num_advice m) (num_selectors m) (permutation m) tr s;
  mn_cs : compress_selectors m (mk_selectors s) = Some (mp_cs pr, polys);
  mn_pr : [/\ mp_n pr = (2 ^ k)%N, mp_u pr = u, mp_instance pr = inst, mk_advice (mp_st pr) = mk_advice s &
    mk_perm (mp_st pr) = mk_perm s];
  mn_fixed : mk_fixed (mp_st pr) = mk_fixed s ++
    [seq [seq CAssigned x | x <- take (2 ^ k) p] ++ nseq (2 ^ k - size p) (CUnassigned F) | p <- polys] }.
Lemma mock_runP k m p instance pr : mock_run k m p instance = Ok pr ->
  exists u inst tr s polys, mock_ran k m p instance pr u inst tr s polys.
Proof.
rewrite /mock_run; case: ltnP => // h1; case: eqP => // h2; rewrite /usable_rows; case: ifP => //= h3.
case e1: (rmap _ _) => [inst||] //=; case e2: (run_synth _ _ _ _) => [s||] //=.
case e3: (compress_selectors _ _) => [[m' polys]|] //= [<-].
have [tr [h4 h5 _]] := C36_mock (leq_subr _ _) e2.
by exists (2 ^ k - (blinding_factors m + 1))%N, inst, tr, s, polys; split.
Qed.
End Run.
