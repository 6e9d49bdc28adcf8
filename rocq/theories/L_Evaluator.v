Set Warnings "-notation-overridden,-ambiguous-paths".
From mathcomp Require Import all_ssreflect all_algebra.
From Verif Require Import FieldTac Util M_Poly M_Domain M_Assigned M_Evaluator S_Evaluator L_Domain.
Import GRing.Theory.
Set Implicit Arguments.
Unset Strict Implicit.
Local Open Scope ring_scope.

Fixpoint Alls {T : Type} (P : T -> Prop) (s : seq T) : Prop :=
  if s is x :: s' then P x /\ Alls P s' else True.

Section Ind.
Variable F : fieldType.
Variable P : ast F -> Prop.
Hypothesis hP : forall i r, P (APoly i r).
Hypothesis hA : forall a b, P a -> P b -> P (AAdd a b).
Hypothesis hM : forall a b, P a -> P b -> P (AMul a b).
Hypothesis hS : forall a s, P a -> P (AScale a s).
Hypothesis hD : forall ts s, Alls P ts -> P (ADistributePowers ts s).
Hypothesis hL : forall s, P (ALinearTerm s).
Hypothesis hC : forall s, P (AConstantTerm s).
Fixpoint ast_ind' (a : ast F) : P a :=
  match a with
  | APoly i r => hP i r
  | AAdd a b => hA (ast_ind' a) (ast_ind' b)
  | AMul a b => hM (ast_ind' a) (ast_ind' b)
  | AScale a s => hS s (ast_ind' a)
  | ADistributePowers ts s =>
      hD s ((fix go (l : seq (ast F)) : Alls P l :=
               match l with [::] => I | x :: l' => conj (ast_ind' x) (go l') end) ts)
  | ALinearTerm s => hL s
  | AConstantTerm s => hC s
  end.
End Ind.

(* get_chunk_of_rotated returns a piece of the rotated list *)
Lemma chunk_of_rotatedE (T : Type) (x0 : T) (v : seq T) neg m cs ci :
  (m <= size v)%N -> (cs * ci < size v)%N ->
  get_chunk_of_rotated_helper v neg m cs ci =
  Some (mkseq (fun i => nth x0 v ((cs * ci + i + (if neg then size v - m else m)) %% size v)%N)
              (minn cs (size v - cs * ci))).
Proof.
move=> hm hc; rewrite /get_chunk_of_rotated_helper hm.
have [md [kk [e1 [e2 e3]]]] : exists md k, [/\
   (if neg then ((size v - m)%N, m) else (m, (size v - m)%N)) = (md, k),
   (if neg then size v - m else m)%N = md & (md + k = size v)%N].
  by case: (neg); do 2 eexists; split=> //; nlia.
rewrite e1 e2; set L := size v in hm hc e3 *; set st := (cs * ci)%N in hc *.
have -> : (cs * (ci + 1) = st + cs)%N by rewrite mulnDr muln1.
set en := minn L (st + cs).
have hen : en = (st + minn cs (L - st))%N.
  by rewrite /en; case: (leqP cs (L - st)) => h; case: (leqP L (st + cs)) => h'; nlia.
set ln := minn cs (L - st) in hen *.
have ln_le : (st + ln <= L)%N by rewrite -hen /en geq_minl.
case: ltnP => h1.
  rewrite /slice (_ : (_ <= _ <= _)%N); last by apply/andP; split; move: h1 hen ln_le e3; nlia.
  congr Some; apply: (@eq_from_nth _ x0).
    by rewrite size_takel ?size_mkseq ?size_drop //; move: h1 hen ln_le e3; rewrite -/L; nlia.
  have -> : (md + en - (md + st) = ln)%N by rewrite hen; nlia.
  move=> i; rewrite size_takel; last by rewrite size_drop -/L; nlia.
  move=> hi; rewrite nth_take // nth_drop nth_mkseq // modn_small; last by nlia.
  by congr nth; nlia.
case: leqP => h2.
  rewrite /slice (_ : (_ <= _ <= _)%N); last by apply/andP; split; nlia.
  have -> : (en - kk - (st - kk) = ln)%N by nlia.
  congr Some; apply: (@eq_from_nth _ x0).
    by rewrite size_takel ?size_mkseq ?size_drop //; rewrite -/L; nlia.
  move=> i; rewrite size_takel; last by rewrite size_drop -/L; nlia.
  move=> hi; rewrite nth_take // nth_drop nth_mkseq //.
  have -> : (st + i + md = (st - kk + i) + L)%N by nlia.
  by rewrite modnDr modn_small //; nlia.
have c1 : (md + st <= L <= size v)%N by apply/andP; split; rewrite -/L; nlia.
have c2 : (0 <= en - kk <= size v)%N by apply/andP; split; rewrite -/L; nlia.
rewrite /slice c1 c2 [obind _ _]/=.
have hsz : size (take (L - (md + st)) (drop (md + st) v) ++ take (en - kk - 0) (drop 0 v)) = ln.
  by rewrite size_cat size_takel ?size_drop // size_takel ?size_drop -/L; nlia.
rewrite hsz (_ : (ln <= cs)%N) ?geq_minl //; congr Some; apply: (@eq_from_nth _ x0).
  by rewrite hsz size_mkseq.
rewrite hsz => i hi; rewrite nth_mkseq // nth_cat size_takel ?size_drop // -/L.
case: ltnP => h3.
  rewrite nth_take // nth_drop modn_small; last by nlia.
  by congr nth; nlia.
rewrite nth_take; last by nlia.
rewrite nth_drop add0n.
have -> : (st + i + md = (i - (L - (md + st))) + L)%N by nlia.
by rewrite modnDr modn_small //; nlia.
Qed.

Lemma scan_mulE (F : fieldType) (w acc : F) n :
  scan_mul w acc n = mkseq (fun i => acc * w ^+ i) n.
Proof.
elim: n acc => //= n IH acc; rewrite IH /mkseq /= mulr1; congr (_ :: _).
rewrite -[iota 1 n]/(iota (1 + 0) n) iotaDl -map_comp; apply: eq_map => i /=.
by rewrite -mulrA -exprS.
Qed.

Lemma zip_assign_mkseq (F : fieldType) (op : F -> F -> F) f g n :
  zip_assign op (mkseq f n) (mkseq g n) = mkseq (fun i => op (f i) (g i)) n.
Proof. by rewrite /mkseq; elim: (iota 0 n) => //= x s ->. Qed.

Lemma nseq_mkseq (T : Type) (x : T) n : nseq n x = mkseq (fun=> x) n.
Proof. by rewrite /mkseq; elim: n 0%N => //= n IH m; rewrite -IH. Qed.

(* gluing the chunks together *)
Lemma glue_chunks (F : fieldType) (g : nat -> F) (r : nat -> option (seq F)) cs L c (s : seq F) :
  (0 < cs)%N -> size s = (L - cs * c)%N ->
  (forall ci, (cs * ci < L)%N -> r ci = Some (mkseq (fun i => g (cs * ci + i)%N) (minn cs (L - cs * ci)))) ->
  omap flatten (sequence (mapi_from c (fun ci out =>
     obind (fun x => if size x == size out then Some x else None) (r ci)) (chunks cs s)))
  = Some (mkseq (fun i => g (cs * c + i)%N) (L - cs * c)).
Proof.
move=> c0 + hr; elim: {s}(size s) {-2}s (leqnn (size s)) c => [|m IH] s.
  by rewrite leqn0 => /eqP h c; rewrite h (size0nil h) => <-.
case: (posnP (size s)) => [/size0nil-> _|s0 hs] c.
  by move=> h; rewrite -h.
move=> e; rewrite chunksE //=.
have hlt : (cs * c < L)%N by rewrite -subn_gt0 -e.
rewrite hr //= size_mkseq size_take -e.
have -> : (if cs < size s then cs else size s)%N = minn cs (size s) by [].
rewrite eqxx /=.
have {IH} := IH (drop cs s) _ c.+1.
rewrite size_drop e => /(_ _ _).
have h1 : (L - cs * c - cs <= m)%N by rewrite -e; nlia.
have h2 : (L - cs * c - cs = L - cs * c.+1)%N by rewrite mulnS; nlia.
move=> /(_ h1 h2).
case: (sequence _) => //= q [->]; congr Some.
apply: (@eq_from_nth _ 0).
  rewrite size_cat !size_mkseq mulnS; case: (leqP cs (L - cs * c)) => h; nlia.
rewrite size_cat !size_mkseq => i hi; rewrite nth_cat size_mkseq.
case: ltnP => h3.
  rewrite !nth_mkseq //; apply: leq_trans h3 _; exact: geq_minr.
have h4 : minn cs (L - cs * c) = cs.
  by move: h3 hi; case: (leqP cs (L - cs * c)) => // h; rewrite mulnS; nlia.
rewrite h4 in h3 hi *; rewrite !nth_mkseq; first last.
- by move: hi; rewrite mulnS; nlia.
- by move: hi; rewrite mulnS; nlia.
by congr g; rewrite mulnS; nlia.
Qed.

Section Ev.
Variable F : fieldType.
Add Field Ff : (F_field_theory F).
Variable zeta : F.
Variable d : domain F.
Variable threads : nat.
Hypothesis threads0 : (0 < threads)%N.

Definition stride (B : basis) : nat :=
  if B is ExtendedLagrangeCoeff then (2 ^ (d_ek d - d_k d))%N else 1%N.
Definition point (B : basis) (i : nat) : F :=
  if B is ExtendedLagrangeCoeff then zeta * d_ext_omega d ^+ i else d_omega d ^+ i.
Definition shift (L : nat) (B : basis) (r : int) (i : nat) : nat :=
  ((i + (if rot_neg r then L - stride B * `|r| else stride B * `|r|)) %% L)%N.

Variables (B : basis) (polys : seq (seq F)) (L cs : nat).
Hypothesis hB : B <> Coeff.
Hypothesis polysL : all (fun p => size p == L) polys.

Definition row (a : ast F) (i : nat) : F :=
  interp (fun idx r => nth 0 (nth [::] polys idx) (shift L B r i)) (point B i) id a.

Definition leaf_ok (l : nat * int) := (l.1 < size polys)%N && (stride B * `|l.2| <= L)%N.

Lemma constant_termE ci (s : F) : (cs * ci < L)%N ->
  constant_term B L cs ci s = Some (mkseq (fun=> s) (minn cs (L - cs * ci))).
Proof.
move=> h; rewrite /constant_term (ltnW h).
by case: (B) hB => // _; rewrite -nseq_mkseq.
Qed.

Lemma recurseE ci (a : ast F) : (cs * ci < L)%N -> all leaf_ok (leaves a) ->
  recurse zeta d B polys L cs ci a =
  Some (mkseq (fun i => row a (cs * ci + i)%N) (minn cs (L - cs * ci))).
Proof.
move=> hc; elim/ast_ind': a => [idx r|a b IHa IHb|a b IHa IHb|a s IHa|ts s IHt|s|s] /=.
- rewrite andbT => /andP [h1 h2]; rewrite h1.
  have hs : size (nth [::] polys idx) = L by apply/eqP; apply: (allP polysL); apply: mem_nth.
  rewrite /row /= /shift; move: h2; rewrite /get_chunk_of_rotated /stride.
  case: (B) hB => // _ /=; rewrite ?mul1n => h2;
  by rewrite (chunk_of_rotatedE 0) ?hs.
- by rewrite all_cat => /andP [/IHa -> /IHb ->] /=; rewrite zip_assign_mkseq.
- by rewrite all_cat => /andP [/IHa -> /IHb ->] /=; rewrite zip_assign_mkseq.
- by move/IHa => -> /=; rewrite -map_comp.
- rewrite constant_termE // => hl.
  rewrite /row /= -/(row).
  have : forall (f : nat -> F),
    foldl (fun acc term => obind (fun acc => omap (zip_assign (fun x t => x * s + t) acc)
        (recurse zeta d B polys L cs ci term)) acc)
      (Some (mkseq f (minn cs (L - cs * ci)))) ts =
    Some (mkseq (fun i => foldl (fun acc t => acc * s + row t (cs * ci + i)%N) (f i) ts)
       (minn cs (L - cs * ci))).
    elim: ts IHt hl => //= t ts IH [h1 h2]; rewrite all_cat => /andP [l1 l2] f.
    by rewrite h1 //= zip_assign_mkseq IH.
  by move=> /(_ (fun=> 0)) ->.
- move=> _; rewrite /linear_term (ltnW hc) /row /= /point.
  case: (B) hB => // _; rewrite scan_mulE; congr Some; apply: eq_mkseq => i.
    by rewrite mulrAC -exprD mulrC.
  rewrite exprD; move: (d_ext_omega d ^+ _) (d_ext_omega d ^+ i) => u v; fnorm F; ring.
by move=> _; rewrite constant_termE.
Qed.
End Ev.

Lemma evaluateE (F : fieldType) (zeta : F) d threads B (polys : seq (seq F)) a :
  (0 < threads)%N -> B <> Coeff -> polys != [::] -> (0 < basis_len d B)%N ->
  all (fun p => size p == basis_len d B) polys ->
  all (leaf_ok d B polys (basis_len d B)) (leaves a) ->
  evaluate zeta d threads B polys a =
  Some (mkseq (row zeta d B polys (basis_len d B) a) (basis_len d B)).
Proof.
move=> ht hB hp hL hs hl; rewrite /evaluate; case: polys hp hs hl => // p0 ps _ hs hl.
have -> : size p0 = basis_len d B by case/andP: hs => /eqP.
set L := basis_len d B in hL hs hl *.
rewrite /get_chunk_params.
have t4 : (0 < threads * 4)%N by rewrite muln_gt0 ht.
rewrite (gtn_eqF t4); set cs := (_ %/ _)%N.
have hcs : (0 < cs)%N by rewrite divn_gt0 //; nlia.
rewrite (gtn_eqF hcs) /=.
have e0 : size (nseq L (0 : F)) = (L - cs * 0)%N by rewrite size_nseq muln0 subn0.
have := glue_chunks (g := row zeta d B (p0 :: ps) L a) hcs e0
  (fun ci hci => recurseE zeta hB hs hci hl).
by rewrite /mapi muln0 subn0 => ->.
Qed.

Lemma interp_ext (ls : nat -> int -> bool) (F : fieldType) (R : comRingType)
  (l1 l2 : nat -> int -> R) X (c : F -> R) (a : ast F) :
  all (fun l => ls l.1 l.2) (leaves a) -> (forall i r, ls i r -> l1 i r = l2 i r) ->
  interp l1 X c a = interp l2 X c a.
Proof.
move=> + h; elim/ast_ind': a => //= [i r|a b IHa IHb|a b IHa IHb|a s IHa|ts s IHt].
- by rewrite andbT => /h.
- by rewrite all_cat => /andP [/IHa -> /IHb ->].
- by rewrite all_cat => /andP [/IHa -> /IHb ->].
- by move/IHa ->.
move: (0 : R); elim: ts IHt => //= t ts IH [h1 h2] z; rewrite all_cat => /andP [l1' l2'].
by rewrite h1 // IH.
Qed.

(* evaluating the polynomial interpretation at a point is interpreting at that point *)
Lemma interp_horner (F : fieldType) (lf : nat -> int -> {poly F}) (x : F) (a : ast F) :
  (interp lf 'X polyC a).[x] = interp (fun i r => (lf i r).[x]) x id a.
Proof.
elim/ast_ind': a => //= [a b IHa IHb|a b IHa IHb|a s IHa|ts s IHt|s|s];
  rewrite ?hornerE ?hornerM ?IHa ?IHb //.
have : forall (p : {poly F}) z, p.[x] = z ->
 (foldl (fun acc t => acc * s%:P + interp lf 'X polyC t) p ts).[x] =
 foldl (fun acc t => acc * s + interp (fun i r => (lf i r).[x]) x id t) z ts.
  elim: ts IHt => //= t ts IH [h1 h2] p z hz; apply: IH => //.
  by rewrite hornerD hornerM hornerC hz h1.
by apply; rewrite horner0.
Qed.

(* the rotation as an integer shift *)
Lemma shiftE (L s : nat) (r : int) i : (0 < L)%N -> (s * `|r| <= L)%N ->
  ((i + (if rot_neg r then L - s * `|r| else s * `|r|)) %% L)%N =
  `|((i%:Z + s%:Z * r) %% L)%Z|%N.
Proof.
move=> L0; rewrite /rot_neg; case: r => r /= hr.
  by rewrite -PoszM -PoszD modz_nat absz_nat.
rewrite -(absz_nat (_ %% _)%N) -modz_nat; congr (absz _).
rewrite PoszD -subzn // addrA addrAC -[RHS]modzDr; congr modz.
Qed.
