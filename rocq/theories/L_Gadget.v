(* Program logic for gadgets: [rsound]/[lsound] speak of any table that respects the calls,
   [rcomp]/[lcomp] of the honest prover's. *)
Set Warnings "-notation-overridden,-ambiguous-paths".
From mathcomp Require Import all_ssreflect all_algebra.
From Verif Require Import Util M_Env M_Assigned P_Assigned M_Circuit S_Circuit M_Value M_Region S_Region M_Utilities L_Region
  M_Layout S_Layout.
Import GRing.Theory.
Set Implicit Arguments.
Unset Strict Implicit.
Local Open Scope ring_scope.

Lemma In_nth (A : Type) (x0 x : A) (s : seq A) : List.In x s -> exists2 i, (i < size s)%N & nth x0 s i = x.
Proof. by elim: s => //= y s IH [->|/IH[i hi e]]; [exists 0%N|exists i.+1]. Qed.
Lemma In_iota i lo n : List.In i (iota lo n) -> (lo <= i < lo + n)%N.
Proof. by move=> h; rewrite -mem_iota; elim: (iota lo n) h => //= x s IH [->|/IH h]; rewrite inE ?eqxx // h orbT. Qed.

Section Logic.
Variables (F : fieldType) (T : table F) (place : nat -> int) (inst : nat -> nat -> value F).

(* ---------------------------------------------------------------- one region *)
Section OneRegion.
Variable r : nat.

Definition rsound {A : Type} (p : rprog F A) (Q : A -> Prop) : Prop :=
  forall a, returns inst p = Ok a -> respects T place r (calls inst p) -> Q a.

Lemma rsound_weaken (A : Type) (p : rprog F A) (Q Q' : A -> Prop) :
  (forall a, Q a -> Q' a) -> rsound p Q -> rsound p Q'.
Proof. by move=> h hp a e hr; apply/h/hp. Qed.
Lemma rsound_ret (A : Type) (a : A) (Q : A -> Prop) : Q a -> rsound (RRet F a) Q.
Proof. by move=> h a' [<-]. Qed.
Lemma rsound_bind (A C : Type) (p : rprog F A) (f : A -> rprog F C) (Q : C -> Prop) :
  rsound p (fun a => rsound (f a) Q) -> rsound (rbindp p f) Q.
Proof.
move=> hp c; rewrite returns_bind; case e: (returns inst p) => [a|//|//] /= hf.
by rewrite (calls_bind _ e) respects_cat => -[h1 h2]; exact: hp e h1 _ hf h2.
Qed.
Lemma rsound_panic (A : Type) (Q : A -> Prop) : rsound RPanic Q. Proof. by move=> a. Qed.
Lemma rsound_err (A : Type) e (Q : A -> Prop) : rsound (RErr e) Q. Proof. by move=> a. Qed.
Lemma rsound_enable s o (Q : unit -> Prop) : (t_selector T s (place r + o%:Z) -> Q tt) -> rsound (enable_selector s o) Q.
Proof. by move=> h [] _; rewrite /= respects_cons => -[/h]. Qed.
Lemma rsound_advice c o v (Q : acell F -> Prop) :
  Q (ACell v (Cell r o (Advice, c))) -> rsound (assign_advice r c o v) Q.
Proof. by move=> h a [<-]. Qed.
Lemma rsound_advice_constant c o v (Q : acell F -> Prop) :
  (t_cell T Advice c (place r + o%:Z) = v -> Q (ACell (known v) (Cell r o (Advice, c)))) ->
  rsound (assign_advice_from_constant r c o v) Q.
Proof. by move=> h a [<-]; rewrite /= respects_cons => -[/h]. Qed.
Lemma rsound_fixed c o v (Q : acell F -> Prop) :
  ((forall x, v = known x -> t_cell T Fixed c (place r + o%:Z) = x) -> Q (ACell v (Cell r o (Fixed, c)))) ->
  rsound (assign_fixed r c o v) Q.
Proof.
move=> h a [<-]; rewrite /= respects_cons => -[hv _]; apply: h => x e.
by rewrite e in hv; exact: hv (ATrivial x) erefl.
Qed.
Lemma rsound_equal c c' (Q : unit -> Prop) :
  (cell_value T place c = cell_value T place c' -> Q tt) -> rsound (constrain_equal c c') Q.
Proof. by move=> h [] _; rewrite /= respects_cons => -[/h]. Qed.
Lemma rsound_constant c v (Q : unit -> Prop) :
  (cell_value T place c = v -> Q tt) -> rsound (constrain_constant c v) Q.
Proof. by move=> h [] _; rewrite /= respects_cons => -[/h]. Qed.
Lemma rsound_copy a c o (Q : acell F -> Prop) :
  (t_cell T Advice c (place r + o%:Z) = cell_value T place (ac_cell a) -> Q (ACell (ac_value a) (Cell r o (Advice, c)))) ->
  rsound (copy_advice r a c o) Q.
Proof.
move=> h; apply: rsound_bind; apply: rsound_advice; apply: rsound_bind; apply: rsound_equal => e.
by apply: rsound_ret; apply: h.
Qed.

(* loops: the i-th result is what the i-th body guarantees *)
Lemma rsound_map (I A : Type) (f : I -> rprog F A) (l : seq I) (P : I -> A -> Prop) (Q : seq A -> Prop) :
  (forall i, List.In i l -> rsound (f i) (P i)) ->
  (forall s, size s = size l -> (forall j i0 a0, (j < size l)%N -> P (nth i0 l j) (nth a0 s j)) -> Q s) ->
  rsound (rmap f l) Q.
Proof.
elim: l Q => [|i l IH] Q hf hQ; first by apply: rsound_ret; apply: hQ.
apply: rsound_bind; apply: rsound_weaken (hf i (or_introl erefl)) => a ha.
apply: rsound_bind; apply: IH => [j hj|s hs hP]; first by apply: hf; right.
apply: rsound_ret; apply: hQ => [|[|j] i0 a0 hj]; by [rewrite /= hs| |exact: hP].
Qed.
Lemma rsound_fold (A : Type) (f : A -> nat -> rprog F A) (lo n : nat) a (P : nat -> A -> Prop) :
  P lo a -> (forall i a, (lo <= i < lo + n)%N -> P i a -> rsound (f a i) (P i.+1)) ->
  rsound (rfold f a (iota lo n)) (P (lo + n)%N).
Proof.
elim: n lo a => [|n IH] lo a h0 hf; first by apply: rsound_ret; rewrite addn0.
apply: rsound_bind; apply: rsound_weaken (hf lo a _ h0) => [a' h'|]; last by rewrite leqnn addnS ltnS leq_addr.
rewrite addnS -addSn; apply: IH => // i b /andP[h1 h2] hb; apply: hf => //.
by rewrite (ltnW h1) addnS -addSn.
Qed.

(* ---- the honest prover.  [rhon H p L V Q]: the program succeeds with a result that satisfies V, whatever
   the table is; it turns on no selectors but those in L; and in the honest prover's table, if H holds, then
   its equality constraints are met, and so is Q. *)
Definition honest_on (ops : seq (rop F)) : Prop := honest T place r ops /\ selectors_on T place r ops.
Lemma honest_on_cat ops ops' : honest_on (ops ++ ops') -> honest_on ops /\ honest_on ops'.
Proof. by case=> /honest_cat[h1 h2] /List.Forall_app[h3 h4]. Qed.
Definition rhon (H : Prop) {A : Type} (p : rprog F A) (L : seq (nat * nat)) (V Q : A -> Prop) : Prop :=
  exists2 a, returns inst p = Ok a &
    [/\ V a, (forall s off, enabled_in (calls inst p) s off -> (s, off) \in L) &
        (H -> honest_on (calls inst p) -> respects T place r (calls inst p) /\ Q a)].

Lemma rhon_weaken (H : Prop) (A : Type) (p : rprog F A) L L' (V Q V' Q' : A -> Prop) :
  {subset L <= L'} -> (forall a, V a -> V' a) -> (forall a, V a -> Q a -> Q' a) ->
  rhon H p L V Q -> rhon H p L' V' Q'.
Proof.
move=> hL hV hQ [a e [h1 h2 h3]]; exists a => //; split; [exact: hV|by move=> s off /h2 /hL|].
by move=> h4 h5; have [h6 h7] := h3 h4 h5; split=> //; apply: hQ.
Qed.
Lemma rhon_keep (H : Prop) (A : Type) (p : rprog F A) L (V Q Q' : A -> Prop) :
  rhon H p L V Q -> (forall a, H -> V a -> Q a -> Q' a) -> rhon H p L V Q'.
Proof.
move=> [a e [h1 h2 h3]] hQ; exists a => //; split=> // h h4; have [h5 h6] := h3 h h4; split=> //; exact: hQ.
Qed.
Lemma rhon_ret (H : Prop) (A : Type) (a : A) (V Q : A -> Prop) : V a -> (H -> Q a) -> rhon H (RRet F a) [::] V Q.
Proof. by move=> h1 h2; exists a => //; split=> // h _; split; [constructor|apply: h2]. Qed.
Lemma rhon_bind (H : Prop) (A C : Type) (p : rprog F A) (f : A -> rprog F C) L1 L2 V1 Q1 (V Q : C -> Prop) :
  rhon H p L1 V1 Q1 -> (forall a, V1 a -> rhon (H /\ Q1 a) (f a) L2 V Q) -> rhon H (rbindp p f) (L1 ++ L2) V Q.
Proof.
move=> [a ea [h1 h2 h3]] /(_ a h1) [c ec [h4 h5 h6]]; exists c; first by rewrite returns_bind ea.
rewrite (calls_bind _ ea); split=> //.
  by move=> s off; rewrite enabled_cat mem_cat => /orP[/h2 ->|/h5 ->]; rewrite ?orbT.
move=> h /honest_on_cat[n1 n2]; have [r1 q1] := h3 h n1; have [r2 q2] := h6 (conj h q1) n2; split=> //.
by apply/respects_cat.
Qed.
Lemma respects_one o : respects_op T place r o -> respects T place r [:: o].
Proof. by move=> h; apply: List.Forall_cons h (List.Forall_nil _). Qed.
Lemma rhon_enable (H : Prop) s o (V Q : unit -> Prop) :
  V tt -> (H -> t_selector T s (place r + o%:Z) -> Q tt) -> rhon H (enable_selector s o) [:: (s, o)] V Q.
Proof.
move=> hV hQ; exists tt => //; split=> //=.
  by move=> s' off; rewrite orbF => /andP[/eqP -> /eqP ->]; rewrite inE.
by move=> h [_ /List.Forall_cons_iff[h1 _]]; split; [exact: respects_one|exact: hQ].
Qed.
Lemma rhon_advice (H : Prop) c o x (V Q : acell F -> Prop) :
  let a := ACell (known x) (Cell r o (Advice, c)) in
  V a -> (H -> t_cell T Advice c (place r + o%:Z) = x -> Q a) -> rhon H (assign_advice r c o (known x)) [::] V Q.
Proof.
move=> a hV hQ; exists a => //; split=> // h [/honest_cons[hv _] _].
by split; [exact: respects_one|apply: hQ => //; exact: hv (ATrivial x) erefl].
Qed.
Lemma rhon_advice_constant (H : Prop) c o x (V Q : acell F -> Prop) :
  let a := ACell (known x) (Cell r o (Advice, c)) in
  V a -> (H -> t_cell T Advice c (place r + o%:Z) = x -> Q a) -> rhon H (assign_advice_from_constant r c o x) [::] V Q.
Proof.
move=> a hV hQ; exists a => //; split=> // h [/honest_cons[hv _] _].
by split; [exact: respects_one|apply: hQ].
Qed.
Lemma rhon_fixed (H : Prop) c o x (V Q : acell F -> Prop) :
  let a := ACell (known x) (Cell r o (Fixed, c)) in
  V a -> (H -> t_cell T Fixed c (place r + o%:Z) = x -> Q a) -> rhon H (assign_fixed r c o (known x)) [::] V Q.
Proof.
move=> a hV hQ; exists a => //; split=> // h [/honest_cons[hv _] _].
by split; [exact: respects_one|apply: hQ => //; exact: hv (ATrivial x) erefl].
Qed.
Lemma rhon_equal (H : Prop) c c' (V Q : unit -> Prop) :
  V tt -> (H -> cell_value T place c = cell_value T place c') -> (H -> Q tt) -> rhon H (constrain_equal c c') [::] V Q.
Proof. by move=> hV he hQ; exists tt => //; split=> //= h _; split; [apply/respects_one/he|apply: hQ]. Qed.
Lemma rhon_constant (H : Prop) c v (V Q : unit -> Prop) :
  V tt -> (H -> cell_value T place c = v) -> (H -> Q tt) -> rhon H (constrain_constant c v) [::] V Q.
Proof. by move=> hV he hQ; exists tt => //; split=> //= h _; split; [apply/respects_one/he|apply: hQ]. Qed.
Lemma rhon_copy (H : Prop) a x c o (V Q : acell F -> Prop) :
  ac_value a = known x -> (H -> cell_value T place (ac_cell a) = x) ->
  V (ACell (known x) (Cell r o (Advice, c))) ->
  (H -> t_cell T Advice c (place r + o%:Z) = x -> Q (ACell (known x) (Cell r o (Advice, c)))) ->
  rhon H (copy_advice r a c o) [::] V Q.
Proof.
set b := ACell _ _; move=> ea ca hV hQ; rewrite /copy_advice ea; apply: (@rhon_bind H _ _ _ _ [::] [::] (eq b) (fun _ => t_cell T Advice c (place r + o%:Z) = x)).
  by apply: rhon_advice.
move=> _ <-; apply: (@rhon_bind _ _ _ _ _ [::] [::] (fun=> True) (fun=> True)).
  by apply: rhon_equal => // -[h e]; rewrite ca //; exact: e.
by move=> _ _; apply: rhon_ret => // -[[h e] _]; apply: hQ.
Qed.
Lemma rhon_map (H : Prop) (I A : Type) (f : I -> rprog F A) (l : seq I) L (W P : I -> A -> Prop) (V Q : seq A -> Prop) :
  (forall i, List.In i l -> rhon H (f i) L (W i) (P i)) ->
  (forall s, size s = size l -> (forall j i0 a0, (j < size l)%N -> W (nth i0 l j) (nth a0 s j)) -> V s) ->
  (forall s, H -> size s = size l -> (forall j i0 a0, (j < size l)%N -> W (nth i0 l j) (nth a0 s j)) ->
     (forall j i0 a0, (j < size l)%N -> P (nth i0 l j) (nth a0 s j)) -> Q s) ->
  rhon H (rmap f l) L V Q.
Proof.
move=> hf hV hQ; apply: (@rhon_weaken H _ _ L L
  (fun s => size s = size l /\ forall j i0 a0, (j < size l)%N -> W (nth i0 l j) (nth a0 s j))
  (fun s => H /\ forall j i0 a0, (j < size l)%N -> P (nth i0 l j) (nth a0 s j))) => //.
- by move=> s [h1 h2]; apply: hV.
- by move=> s [h1 h2] [h3 h4]; apply: hQ.
elim: l hf {hV hQ} => [|i l IH] hf; first by exists [::] => //; split=> // h _; split; [constructor|].
have [a ea [a1 a2 a3]] := hf i (or_introl erefl).
have [s es [[s1 s1'] s2 s3]] := IH (fun j hj => hf j (or_intror hj)).
exists (a :: s); first by rewrite /= returns_bind ea /= returns_bind es.
have ec : calls inst (rmap f (i :: l)) = calls inst (f i) ++ calls inst (rmap f l).
  by rewrite /= (calls_bind _ ea) (calls_bind _ es) /= cats0.
rewrite ec; split.
- by split=> [|[|j] i0 a0 hj]; [rewrite /= s1| |exact: s1'].
- by move=> s' off; rewrite enabled_cat => /orP[/a2|/s2].
move=> h /honest_on_cat[n1 n2]; have [r1 q1] := a3 h n1; have [r2 [_ q2]] := s3 h n2.
by split; [apply/respects_cat|split=> // -[|j] i0 a0 hj; [exact: q1|exact: q2]].
Qed.

(* ok s row: what has to hold where selector s is on *)
Variable ok : nat -> int -> Prop.
Definition on_ok (ops : seq (rop F)) : Prop := forall s off, enabled_in ops s off -> ok s (place r + off%:Z).
Definition rcomp (H : Prop) {A : Type} (p : rprog F A) (V Q : A -> Prop) : Prop :=
  exists2 a, returns inst p = Ok a & V a /\
    (H -> honest_on (calls inst p) -> [/\ respects T place r (calls inst p), on_ok (calls inst p) & Q a]).
Lemma rcomp_weaken (H : Prop) (A : Type) (p : rprog F A) (V Q V' Q' : A -> Prop) :
  (forall a, V a -> V' a) -> (forall a, V a -> Q a -> Q' a) -> rcomp H p V Q -> rcomp H p V' Q'.
Proof.
move=> hV hQ [a e [h1 h2]]; exists a => //; split; first exact: hV.
by move=> h3 h4; have [h5 h6 h7] := h2 h3 h4; split=> //; apply: hQ.
Qed.
(* a block whose selectors are justified at its end *)
Lemma rcomp_block (H : Prop) (A : Type) (p : rprog F A) L (V Q Q' : A -> Prop) :
  rhon H p L V Q -> (forall a, H -> V a -> Q a -> (forall s off, (s, off) \in L -> ok s (place r + off%:Z)) /\ Q' a) ->
  rcomp H p V Q'.
Proof.
move=> [a e [h1 h2 h3]] hQ; exists a => //; split=> // h h4; have [h5 h6] := h3 h h4.
by have [h7 h8] := hQ a h h1 h6; split=> // s off /h2 /h7.
Qed.
Lemma rcomp_ret (H : Prop) (A : Type) (a : A) (V Q : A -> Prop) : V a -> (H -> Q a) -> rcomp H (RRet F a) V Q.
Proof. by move=> hV hQ; exists a => //; split=> // h _; split; [constructor| |apply: hQ]. Qed.
Lemma rcomp_bind (H : Prop) (A C : Type) (p : rprog F A) (f : A -> rprog F C) V1 Q1 (V Q : C -> Prop) :
  rcomp H p V1 Q1 -> (forall a, V1 a -> rcomp (H /\ Q1 a) (f a) V Q) -> rcomp H (rbindp p f) V Q.
Proof.
move=> [a ea [h1 h3]] /(_ a h1) [c ec [h4 h6]]; exists c; first by rewrite returns_bind ea.
rewrite (calls_bind _ ea); split=> //.
move=> h /honest_on_cat[n1 n2]; have [r1 o1 q1] := h3 h n1; have [r2 o2 q2] := h6 (conj h q1) n2; split=> //.
  by apply/respects_cat.
by move=> s off; rewrite enabled_cat => /orP[/o1|/o2].
Qed.
Lemma rcomp_fold (H : Prop) (A : Type) (f : A -> nat -> rprog F A) (lo n : nat) a (V Q : nat -> A -> Prop) :
  V lo a -> (H -> Q lo a) ->
  (forall i a, (lo <= i < lo + n)%N -> V i a -> rcomp (H /\ Q i a) (f a i) (V i.+1) (Q i.+1)) ->
  rcomp H (rfold f a (iota lo n)) (V (lo + n)%N) (Q (lo + n)%N).
Proof.
elim: n lo a H => [|n IH] lo a H h0 q0 hf; first by apply: rcomp_ret; rewrite addn0.
apply: (rcomp_bind (V1 := V lo.+1) (Q1 := Q lo.+1)).
  have [b e [h1 h2]] := hf lo a ltac:(by rewrite leqnn addnS ltnS leq_addr) h0.
  by exists b => //; split=> // h; apply: h2; split=> //; apply: q0.
move=> a' h'; rewrite addnS -addSn; apply: IH => // [[]//|i b /andP[h1 h2] hb].
have [d e [h3 h4]] := hf i b ltac:(by rewrite (ltnW h1) addnS -addSn) hb.
by exists d => //; split=> // -[[h _] q]; apply: h4.
Qed.
Lemma rcomp_fold0 (H : Prop) (A : Type) (f : A -> nat -> rprog F A) (n : nat) a (V Q : nat -> A -> Prop) :
  V 0%N a -> (H -> Q 0%N a) ->
  (forall i a, (i < n)%N -> V i a -> rcomp (H /\ Q i a) (f a i) (V i.+1) (Q i.+1)) ->
  rcomp H (rfold f a (iota 0 n)) (V n) (Q n).
Proof. by move=> h0 q0 hf; apply: (@rcomp_fold H A f 0 n a V Q h0 q0) => i b; rewrite add0n; apply: hf. Qed.
End OneRegion.

(* ---------------------------------------------------------------- several regions *)
Lemma lreturns_bind (A C : Type) (p : lprog F A) (f : A -> lprog F C) r :
  lreturns inst r (lbind p f) = rbind (lreturns inst r p) (fun a => lreturns inst a.2 (f a.1)).
Proof.
elim: p r => [a|e||D body k IH|t k IH|c col row k IH] r //=; try exact: IH.
by case: (returns inst (body r)) => //= d; exact: IH.
Qed.
Lemma lregions_bind (A C : Type) (p : lprog F A) (f : A -> lprog F C) r a r' :
  lreturns inst r p = Ok (a, r') -> lregions inst r (lbind p f) = lregions inst r p ++ lregions inst r' (f a).
Proof.
elim: p r => [b|e||D body k IH|t k IH|c col row k IH] r //=; try exact: IH; first by case=> -> ->.
by case: (returns inst (body r)) => //= d /IH ->.
Qed.
Lemma linstances_bind (A C : Type) (p : lprog F A) (f : A -> lprog F C) r a r' :
  lreturns inst r p = Ok (a, r') -> linstances inst r (lbind p f) = linstances inst r p ++ linstances inst r' (f a).
Proof.
elim: p r => [b|e||D body k IH|t k IH|c col row k IH] r //=; try exact: IH; first by case=> -> ->.
  by case: (returns inst (body r)) => //= d /IH ->.
by move/IH ->.
Qed.
Lemma lrespects_bind (A C : Type) (p : lprog F A) (f : A -> lprog F C) r a r' :
  lreturns inst r p = Ok (a, r') ->
  lrespects T place inst r (lbind p f) <-> lrespects T place inst r p /\ lrespects T place inst r' (f a).
Proof.
move=> e; rewrite /lrespects (lregions_bind _ e) (linstances_bind _ e) !List.Forall_app; tauto.
Qed.
Lemma lhonest_bind (A C : Type) (p : lprog F A) (f : A -> lprog F C) r a r' :
  lreturns inst r p = Ok (a, r') ->
  lhonest T place inst r (lbind p f) <-> lhonest T place inst r p /\ lhonest T place inst r' (f a).
Proof. by move=> e; rewrite /lhonest (lregions_bind _ e) List.Forall_app. Qed.

Definition lsound {A : Type} (p : lprog F A) (Q : A -> Prop) : Prop :=
  forall r a r', lreturns inst r p = Ok (a, r') -> lrespects T place inst r p -> Q a.
Lemma lsound_weaken (A : Type) (p : lprog F A) (Q Q' : A -> Prop) :
  (forall a, Q a -> Q' a) -> lsound p Q -> lsound p Q'.
Proof. by move=> h hp r a r' e hr; apply: h; exact: hp e hr. Qed.
Lemma lsound_ret (A : Type) (a : A) (Q : A -> Prop) : Q a -> lsound (LRet a) Q.
Proof. by move=> h r a' r' [<- _]. Qed.
Lemma lsound_panic (A : Type) (Q : A -> Prop) : lsound LPanic Q. Proof. by move=> r a r'. Qed.
Lemma lsound_err (A : Type) e (Q : A -> Prop) : lsound (LErr e) Q. Proof. by move=> r a r'. Qed.
Lemma lsound_bind (A C : Type) (p : lprog F A) (f : A -> lprog F C) (Q : C -> Prop) :
  lsound p (fun a => lsound (f a) Q) -> lsound (lbind p f) Q.
Proof.
move=> hp r c r'; rewrite lreturns_bind; case e: (lreturns inst r p) => [[a r1]|//|//] /= hf.
by rewrite (lrespects_bind _ e) => -[h1 h2]; exact: hp e h1 _ _ _ hf h2.
Qed.
Lemma lsound_region (A : Type) (body : nat -> rprog F A) (Q : A -> Prop) :
  (forall r, rsound r (body r) Q) -> lsound (assign_region body) Q.
Proof.
move=> h r a r' /=; case e: (returns inst (body r)) => [b|//|//] [<- _] [/List.Forall_cons_iff[h1 _] _].
exact: h e h1.
Qed.
Lemma lsound_fold (I A : Type) (f : A -> I -> lprog F A) (l : seq I) a (P : seq I -> A -> Prop) :
  P [::] a -> (forall l1 i l2 a, l = l1 ++ i :: l2 -> P l1 a -> lsound (f a i) (P (rcons l1 i))) ->
  lsound (lfold f a l) (P l).
Proof.
move=> h0 hf; have key l2 : forall l1 a, P l1 a -> l = l1 ++ l2 -> lsound (lfold f a l2) (P l); last exact: (key l [::]).
elim: l2 => [|i l2 IH] l1 b h1 el; first by apply: lsound_ret; rewrite el cats0.
apply: lsound_bind; apply: lsound_weaken (hf _ _ _ _ el h1) => a' h'.
by apply: (IH (rcons l1 i)) => //; rewrite cat_rcons.
Qed.

Variable ok : nat -> int -> Prop.
Definition lon_ok (regions : seq (nat * seq (rop F))) : Prop :=
  List.Forall (fun c => on_ok c.1 ok c.2) regions.
Definition lhonest_on {A : Type} (r : nat) (p : lprog F A) : Prop := lhonest T place inst r p /\ lselectors_on T place inst r p.
Lemma lhonest_on_bind (A C : Type) (p : lprog F A) (f : A -> lprog F C) r a r' :
  lreturns inst r p = Ok (a, r') -> lhonest_on r (lbind p f) -> lhonest_on r p /\ lhonest_on r' (f a).
Proof. by move=> e; rewrite /lhonest_on /lhonest /lselectors_on (lregions_bind _ e) => -[/List.Forall_app[? ?] /List.Forall_app[? ?]]. Qed.
Definition lcomp (H : Prop) {A : Type} (p : lprog F A) (V Q : A -> Prop) : Prop :=
  forall r, exists a r', lreturns inst r p = Ok (a, r') /\ V a /\
    (H -> lhonest_on r p -> [/\ lrespects T place inst r p, lon_ok (lregions inst r p) & Q a]).
Lemma lcomp_weaken (H : Prop) (A : Type) (p : lprog F A) (V Q V' Q' : A -> Prop) :
  (forall a, V a -> V' a) -> (forall a, V a -> Q a -> Q' a) -> lcomp H p V Q -> lcomp H p V' Q'.
Proof.
move=> hV hQ hp r; have [a [r' [e [h1 h2]]]] := hp r; exists a, r'; split=> //; split; first exact: hV.
by move=> h3 h4; have [h5 h6 h7] := h2 h3 h4; split=> //; apply: hQ.
Qed.
Lemma lcomp_ret (H : Prop) (A : Type) (a : A) (V Q : A -> Prop) : V a -> (H -> Q a) -> lcomp H (LRet a) V Q.
Proof.
move=> hV hQ r; exists a, r; split=> //; split=> // h _; split; [by split; constructor|by constructor|exact: hQ].
Qed.
Lemma lcomp_bind (H : Prop) (A C : Type) (p : lprog F A) (f : A -> lprog F C) V1 Q1 (V Q : C -> Prop) :
  lcomp H p V1 Q1 -> (forall a, V1 a -> lcomp (H /\ Q1 a) (f a) V Q) -> lcomp H (lbind p f) V Q.
Proof.
move=> hp hf r; have [a [r1 [e1 [v1 q1]]]] := hp r; have [c [r2 [e2 [v2 q2]]]] := hf a v1 r1.
exists c, r2; split; first by rewrite lreturns_bind e1.
split=> // h /(lhonest_on_bind e1)[n3 n4]; rewrite (lregions_bind _ e1).
have [r3 o1 q3] := q1 h n3; have [r4 o2 q4] := q2 (conj h q3) n4; split=> //; first by apply/(lrespects_bind _ e1).
by apply/List.Forall_app.
Qed.
Lemma lcomp_region (H : Prop) (A : Type) (body : nat -> rprog F A) (V Q : A -> Prop) :
  (forall r, rcomp r ok H (body r) V Q) -> lcomp H (assign_region body) V Q.
Proof.
move=> h r; have [a e [v q]] := h r; exists a, r.+1; rewrite /lreturns /= e; split=> //; split=> // hH [].
rewrite /lhonest /lselectors_on /lrespects /= e => /List.Forall_cons_iff[h1 _] /List.Forall_cons_iff[h2 _].
have [r' o q'] := q hH (conj h1 h2); split=> //; last by apply: List.Forall_cons => //; apply: List.Forall_nil.
by split; [apply: List.Forall_cons => //; apply: List.Forall_nil|apply: List.Forall_nil].
Qed.
Lemma lcomp_instance (H : Prop) cell col row (V Q : unit -> Prop) :
  V tt -> (H -> cell_value T place cell = t_cell T Instance col row%:Z) -> (H -> Q tt) ->
  lcomp H (LInstance cell col row (LRet tt)) V Q.
Proof.
move=> hV he hQ r; exists tt, r; split=> //; split=> // h _; split; [|by constructor|exact: hQ].
by split; [constructor|apply: List.Forall_cons; [exact: he|apply: List.Forall_nil]].
Qed.
Lemma lcomp_fold (I A : Type) (H : Prop) (f : A -> I -> lprog F A) (l : seq I) a (V Q : seq I -> A -> Prop) :
  V [::] a -> (H -> Q [::] a) ->
  (forall l1 i l2 a, l = l1 ++ i :: l2 -> V l1 a -> lcomp (H /\ Q l1 a) (f a i) (V (rcons l1 i)) (Q (rcons l1 i))) ->
  lcomp H (lfold f a l) (V l) (Q l).
Proof.
move=> h0 q0 hf; have key l2 : forall l1 a (H' : Prop), (H' -> H) -> V l1 a -> (H' -> Q l1 a) -> l = l1 ++ l2 ->
    lcomp H' (lfold f a l2) (V l) (Q l); last exact: (key l [::]).
elim: l2 => [|i l2 IH] l1 b H' hH h1 q1 el; first by apply: lcomp_ret; rewrite el cats0.
apply: (lcomp_bind (V1 := V (rcons l1 i)) (Q1 := Q (rcons l1 i))).
  move=> r; have [d [r' [e [v q]]]] := hf _ _ _ _ el h1 r; exists d, r'; split=> //; split=> // h.
  by apply: q; split; [exact: hH|exact: q1].
by move=> a' v'; apply: (IH (rcons l1 i)) => // [[/hH]//|[]//|]; rewrite cat_rcons.
Qed.
(* from the selectors the program turned on to the whole table *)
Lemma lcomp_everywhere regions sels (hk : lon_ok regions) :
  on_only_in T place regions sels -> forall s row, s \in sels -> t_selector T s row -> ok s row.
Proof.
move=> ho s row hs ht; have := ho s row hs ht; move: hk; rewrite /turned_on /lon_ok.
elim: regions {ho} => [|c l IH] /=; first by move=> _ /List.Exists_nil.
by case/List.Forall_cons_iff=> h1 h2 /List.Exists_cons[[off e ->]|]; [exact: h1|exact: IH].
Qed.
End Logic.
