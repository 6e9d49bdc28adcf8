(* Expressions turned into Asts, at the rows of a table. *)
Set Warnings "-notation-overridden,-ambiguous-paths".
From mathcomp Require Import all_ssreflect all_algebra.
From Verif Require Import Util M_Poly M_Domain L_Domain M_Evaluator S_Evaluator L_Evaluator P_Evaluator M_Assigned
  M_Env M_Transcript M_Commit M_Multiopen M_Circuit S_Circuit M_Selectors L_Selectors M_Keys M_Permutation M_Lookup L_Sigma
  S_Permutation L_PermRows S_Plonk.
Import GRing.Theory.
Set Implicit Arguments.
Unset Strict Implicit.
Local Open Scope ring_scope.

Definition leaves_of (l : lleaves) (a : any) : seq nat :=
  match a with Advice => ll_advice l | Fixed => ll_fixed l | Instance => ll_instance l end.
(* leaf (a, c) has the values of column (a, c) *)
Definition leaf_columns (F : fieldType) (n : nat) (ncols : any -> nat) (l : lleaves) (row : nat -> nat -> F)
    (T : any -> nat -> nat -> F) : Prop :=
  forall a c, (c < ncols a)%N -> (c < size (leaves_of l a))%N /\
    forall i, (i < n)%N -> row (nth 0%N (leaves_of l a) c) i = T a c i.

Section Bridge.
Variables (F : fieldType) (n : nat) (ncols : any -> nat) (l : lleaves).
Hypothesis hl : forall a c, (c < ncols a)%N -> (c < size (leaves_of l a))%N.

Lemma leaf_astE (e : expr F) : expr_within n ncols e -> exists a, [/\ leaf_ast l e = Some a,
  all (fun q => ((q.1 \in ll_advice l) || (q.1 \in ll_fixed l) || (q.1 \in ll_instance l)) && (`|q.2| <= n)%N)
    (leaves a) &
  forall (L : nat -> int -> F) X, interp L X id a =
    meaning (R := [comAlgType F of F^o]) (fun _ => 0) (fun a c r => L (nth 0%N (leaves_of l a) c) r) e].
Proof.
rewrite /leaf_ast /expr_ast /meaning; elim: e => //=.
- by move=> c _; exists (AConstantTerm c); split=> // L X /=; rewrite /GRing.scale /= mulr1.
- move=> _ c r /andP [/(hl (a := Fixed)) h hr]; exists (APoly (nth 0%N (ll_fixed l) c) r).
  by rewrite (getE 0%N) //=; split=> //; rewrite hr mem_nth // orbT.
- move=> _ c r /andP [/(hl (a := Advice)) h hr]; exists (APoly (nth 0%N (ll_advice l) c) r).
  by rewrite (getE 0%N) //=; split=> //; rewrite hr mem_nth.
- move=> _ c r /andP [/(hl (a := Instance)) h hr]; exists (APoly (nth 0%N (ll_instance l) c) r).
  by rewrite (getE 0%N) //=; split=> //; rewrite hr mem_nth // !orbT.
- move=> a IH /IH [x [-> h1 h2]]; exists (ast_neg x); split=> // L X.
  by rewrite -(h2 L X) /= mulrN1.
- move=> a IHa b IHb /andP [/IHa [x [-> h1 h2]] /IHb [y [-> h3 h4]]]; exists (AAdd x y); split=> //.
    by rewrite /= all_cat h1 h3.
  by move=> L X; rewrite -(h2 L X) -(h4 L X).
- move=> a IHa b IHb /andP [/IHa [x [-> h1 h2]] /IHb [y [-> h3 h4]]]; exists (AMul x y); split=> //.
    by rewrite /= all_cat h1 h3.
  by move=> L X; rewrite -(h2 L X) -(h4 L X).
move=> a IH s /IH [x [-> h1 h2]]; exists (AScale x s); split=> // L X.
by rewrite -(h2 L X) /= mulrC.
Qed.
End Bridge.

Lemma meaning_ext (F : fieldType) n ncols (s1 s2 : nat -> F) (c1 c2 : any -> nat -> int -> F) (e : expr F) :
  expr_within n ncols e -> (forall a c r, (c < ncols a)%N -> (`|r| <= n)%N -> c1 a c r = c2 a c r) ->
  meaning (R := [comAlgType F of F^o]) s1 c1 e = meaning (R := [comAlgType F of F^o]) s2 c2 e.
Proof.
rewrite /meaning => + h; elim: e => //=.
- by move=> _ c r /andP [h1 h2]; exact: h.
- by move=> _ c r /andP [h1 h2]; exact: h.
- by move=> _ c r /andP [h1 h2]; exact: h.
- by move=> a IH /IH ->.
- by move=> a IHa b IHb /andP [/IHa -> /IHb ->].
- by move=> a IHa b IHb /andP [/IHa -> /IHb ->].
by move=> a IH s /IH ->.
Qed.

Lemma row_of_lt n i r : (0 < n)%N -> (row_of n i r < n)%N.
Proof.
move=> n0; rewrite /row_of; have h : (n%:Z != 0)%R by rewrite eqz_nat -lt0n.
by rewrite -ltz_nat gez0_abs ?modz_ge0 // ltz_mod.
Qed.
Lemma row_of0 n i : (i < n)%N -> row_of n i 0 = i.
Proof. by move=> h; rewrite /row_of addr0 modz_nat absz_nat modn_small. Qed.
Lemma row_of_pow (F : fieldType) (w : F) n i r : w ^+ n = 1 -> w != 0 -> (0 < n)%N ->
  w ^ r * w ^+ i = w ^+ row_of n i r.
Proof.
move=> wn w0 n0; have h : (n%:Z != 0)%R by rewrite eqz_nat -lt0n.
have -> : w ^+ row_of n i r = w ^ ((i%:Z + r) %% n)%Z.
  by rewrite -[RHS](_ : w ^ (`|((i%:Z + r) %% n)%Z|%N : int) = _) // gez0_abs ?modz_ge0.
rewrite -[w ^+ i]/(w ^ i%:Z) -expfzDr // addrC {1}(divz_eq (i%:Z + r) n) expfzDr //.
by rewrite mulrC -[X in _ * X]exprz_exp exprzAC -[w ^ n%:Z]/(w ^+ n) wn exp1rz mulr1.
Qed.

Section At.
Variables (F : fieldType) (k : nat) (w : F).
Notation n := (2 ^ k)%N.
Hypothesis hw : n.-primitive_root w.
Variables (ncols : any -> nat) (l : lleaves) (P : nat -> {poly F}) (T : any -> nat -> nat -> F).
Hypothesis hP : leaf_columns n ncols l (fun leaf i => (P leaf).[w ^+ i]) T.

Lemma hl a c : (c < ncols a)%N -> (c < size (leaves_of l a))%N. Proof. by case/hP. Qed.
Lemma n0 : (0 < n)%N. Proof. by rewrite expn_gt0. Qed.
Lemma at_leaf_ast e a i : expr_within n ncols e -> leaf_ast l e = Some a -> 
  expr_at w P (w ^+ i) a = row_value n T i e.
Proof.
move=> he; have [a' [-> h1 h2]] := leaf_astE hl he; case=> <-.
rewrite /expr_at interp_horner h2 /row_value; apply: (meaning_ext _ _ he) => b c r hc hr.
rewrite /rotated horner_comp hornerZ hornerX (row_of_pow _ _ (prim_expr_order hw)) ?(prim_neq0 hw) ?n0 //.
by have [_ ->] := hP hc; rewrite ?row_of_lt ?n0.
Qed.
Lemma at_compress_cosets theta es asts i : all (expr_within n ncols) es ->
  sequence [seq leaf_ast l e | e <- es] = Some asts ->
  expr_at w P (w ^+ i) (compress_cosets theta asts) = compress theta [seq row_value n T i e | e <- es].
Proof.
rewrite /compress_cosets /compress; have : expr_at w P (w ^+ i) (AConstantTerm 0) = 0 by rewrite atE.
elim: es asts (AConstantTerm 0) {2 4}0 => [|e es IH] asts acc c ha /=.
  by move=> _ [<-].
move=> /andP [he hes]; have [a [ea _ _]] := leaf_astE hl he.
rewrite ea /=; case es': (sequence _) => [asts'|] //= -[<-] /=.
by apply: IH => //; rewrite !atE ha (at_leaf_ast _ he ea).
Qed.
End At.

Section Values.
Variables (F : fieldType) (zeta : F) (d : domain F) (threads n : nat).
Hypotheses (ht : (0 < threads)%N) (hn : d_n d = n) (n0 : (0 < n)%N).
Variables (ncols : any -> nat) (l : lleaves) (polys : seq (seq F)) (T : any -> nat -> nat -> F).
Hypothesis hpolys : polys != [::].
Hypothesis hsz : all (fun p => size p == n) polys.
Hypothesis hcols : leaf_columns n ncols l (fun leaf i => nth 0 (nth [::] polys leaf) i) T.
Hypothesis hleaves : forall a, all (fun leaf => leaf < size polys)%N (leaves_of l a).

Lemma hl' a c : (c < ncols a)%N -> (c < size (leaves_of l a))%N. Proof. by case/hcols. Qed.
Lemma leaf_asts es : all (expr_within n ncols) es ->
  exists asts, [/\ sequence [seq leaf_ast l e | e <- es] = Some asts,
    all (fun a => all (fun q => (q.1 < size polys)%N && (`|q.2| <= n)%N) (leaves a)) asts &
    forall i X, [seq interp (fun idx r => nth 0 (nth [::] polys idx) (row_of n i r)) X id a | a <- asts] =
      [seq row_value n T i e | e <- es]].
Proof.
elim: es => [|e es IH] /=; first by move=> _; exists [::].
move=> /andP [he /IH [asts [-> h1 h2]]]; have [a [-> h3 h4]] := leaf_astE hl' he.
exists (a :: asts); split=> //=.
  rewrite h1 andbT; apply: sub_all h3 => q /andP [h ->]; rewrite andbT.
  have hA := allP (hleaves Advice) q.1; have hF := allP (hleaves Fixed) q.1; have hI := allP (hleaves Instance) q.1.
  by case/orP: h => [/orP [/hA|/hF]|/hI].
move=> i X; rewrite h2 h4; congr (_ :: _); apply: (meaning_ext _ _ he) => b c r hc hr.
by have [_ ->] := hcols hc; rewrite ?row_of_lt.
Qed.

Lemma evaluate_compress theta es : all (expr_within n ncols) es ->
  exists2 asts, sequence [seq leaf_ast l e | e <- es] = Some asts &
  evaluate zeta d threads LagrangeCoeff polys (compress_values theta asts) =
  Some (mkseq (fun i => compress theta [seq row_value n T i e | e <- es]) n).
Proof.
move=> hes; have [asts [e1 h1 h2]] := leaf_asts hes; exists asts => //.
rewrite C08_evaluate_rows_lagrange ?hn //.
- congr Some; apply: eq_mkseq => i; rewrite /compress -(h2 i (d_omega d ^+ i)) /compress_values.
  rewrite -[X in interp X _ _ _]/(fun (idx : nat) (r : int) => nth 0 (nth [::] polys idx) (row_of n i r)).
  set L := (fun (idx : nat) (r : int) => _).
  have key (as' : seq (ast F)) acc c : interp L (d_omega d ^+ i) id acc = c ->
    interp L (d_omega d ^+ i) id (foldl (fun acc e => AAdd (AScale acc theta) e) acc as') =
    foldl (fun acc x => acc * theta + x) c [seq interp L (d_omega d ^+ i) id a | a <- as'].
    by elim: as' acc c => //= a as' IH acc c e; apply: IH; rewrite /= e.
  exact: key.
rewrite /compress_values; have : all (fun q => (q.1 < size polys)%N && (`|q.2| <= n)%N) (leaves (AConstantTerm (0 : F))) by [].
elim: (asts) (AConstantTerm 0) h1 => //= a as' IH acc /andP [ha has] hc; apply: IH => //=.
by rewrite all_cat hc.
Qed.
End Values.
