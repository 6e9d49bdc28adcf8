(* Generic list support used by several models (no halo2 content). *)
Set Warnings "-notation-overridden,-ambiguous-paths".
From mathcomp Require Import all_ssreflect all_algebra.
Set Implicit Arguments.
Unset Strict Implicit.

(* Rust's [slice.chunks(c)]: consecutive pieces of length [c], the last one shorter
   if [c] does not divide the length.  [c = 0] panics in Rust; callers exclude it. *)
Fixpoint chunks_fix {T : Type} (fuel c : nat) (s : seq T) : seq (seq T) :=
  if fuel is f.+1 then
    if s is [::] then [::] else take c s :: chunks_fix f c (drop c s)
  else [::].
Definition chunks {T : Type} (c : nat) (s : seq T) := chunks_fix (size s) c s.

(* [for (i, x) in s.enumerate() { x = f(start + i, x) }] *)
Fixpoint mapi_from {T U : Type} (start : nat) (f : nat -> T -> U) (s : seq T) : seq U :=
  if s is x :: s' then f start x :: mapi_from start.+1 f s' else [::].
Definition mapi {T U : Type} (f : nat -> T -> U) (s : seq T) : seq U := mapi_from 0 f s.

(* Rust's iterator [scan] used as "running product" etc. is expressed with MathComp's
   [scanl]/[traject]. *)

Lemma rev_iotaS n : rev (iota 0 n.+1) = n :: rev (iota 0 n).
Proof. by rewrite -addn1 iotaD rev_cat. Qed.

Section Lemmas.
Variable T : Type.
Implicit Types s : seq T.

Lemma size_mapi_from (U : Type) (f : nat -> T -> U) b s : size (mapi_from b f s) = size s.
Proof. by elim: s b => //= x s IH b; rewrite IH. Qed.
Lemma size_mapi (U : Type) (f : nat -> T -> U) s : size (mapi f s) = size s.
Proof. exact: size_mapi_from. Qed.
Lemma nth_mapi_from (U : Type) (f : nat -> T -> U) b s i x y : i < size s ->
  nth y (mapi_from b f s) i = f (b + i) (nth x s i).
Proof.
elim: s b i => [|z s IH] b [|i] //= hi; first by rewrite addn0.
by rewrite IH // addSnnS.
Qed.
Lemma nth_mapi (U : Type) (f : nat -> T -> U) s i x y : i < size s ->
  nth y (mapi f s) i = f i (nth x s i).
Proof. by move=> hi; rewrite /mapi (nth_mapi_from f 0 x). Qed.
Lemma mapi_from_cat (U : Type) (f : nat -> T -> U) b s1 s2 :
  mapi_from b f (s1 ++ s2) = mapi_from b f s1 ++ mapi_from (b + size s1) f s2.
Proof.
by elim: s1 b => [|x s1 IH] b /=; rewrite ?addn0 // IH addSnnS.
Qed.

Lemma chunks_fix_fuel f1 f2 c s :
  0 < c -> size s <= f1 -> size s <= f2 -> chunks_fix f1 c s = chunks_fix f2 c s.
Proof.
case: c => // c _; elim: f1 f2 s => [|f1 IH] [|f2] [|x s] //= h1 h2.
congr cons; apply: IH; rewrite size_drop.
  apply: (@leq_trans (size s)); [exact: leq_subr | exact: h1].
apply: (@leq_trans (size s)); [exact: leq_subr | exact: h2].
Qed.

Lemma chunks_nil c : chunks c ([::] : seq T) = [::].
Proof. by []. Qed.

Lemma chunksE c s : 0 < c -> 0 < size s ->
  chunks c s = take c s :: chunks c (drop c s).
Proof.
case: s => // x s c0 _; rewrite {1}/chunks /=; congr cons.
rewrite /chunks; apply: chunks_fix_fuel => //; rewrite size_drop /=.
by case: c c0 => // c _; exact: leq_subr.
Qed.

Lemma chunks_cat c m s1 s2 : 0 < c -> size s1 = m * c ->
  chunks c (s1 ++ s2) = chunks c s1 ++ chunks c s2.
Proof.
move=> c0; elim: m s1 => [|m IH] s1.
  by rewrite mul0n => /size0nil->.
move=> hs.
have s1c : c <= size s1 by rewrite hs mulSn leq_addr.
have s10 : 0 < size s1 by apply: leq_trans s1c.
rewrite chunksE //; last by rewrite size_cat; apply: leq_trans (leq_addr _ _).
rewrite [chunks c s1]chunksE // take_cat drop_cat.
case: ltnP => h.
  by rewrite IH //= size_drop hs mulSn addKn.
have e : size s1 = c by apply/eqP; rewrite eqn_leq h s1c.
by rewrite e subnn take0 drop0 cats0 take_oversize ?e // drop_oversize ?e.
Qed.

Lemma chunks_one c s : 0 < c -> size s = c -> chunks c s = [:: s].
Proof.
move=> c0 hs; rewrite chunksE ?hs // take_oversize ?hs // drop_oversize ?hs //.
Qed.

Lemma flatten_chunks c s : 0 < c -> flatten (chunks c s) = s.
Proof.
move=> c0; elim: {s}(size s) {-2}s (leqnn (size s)) => [|n IH] s.
  by rewrite leqn0 => /eqP /size0nil->.
case: (posnP (size s)) => [/size0nil->|s0 hs] //.
rewrite chunksE //= IH ?cat_take_drop // size_drop.
by rewrite leq_subLR; apply: leq_trans hs _; rewrite -addn1 addnC leq_add2r.
Qed.
End Lemmas.

(* Linear arithmetic on MathComp naturals through Coq's [lia]. *)
Require Import Lia ArithRing.
Ltac nat_prep :=
  repeat match goal with
  | H : is_true (leq ?a ?b) |- _ => apply (elimT (@leP a b)) in H
  | H : is_true (~~ leq ?a ?b) |- _ => apply (elimT (@leP _ _)) in H || (rewrite -ltnNge in H)
  | H : leq ?a ?b = true |- _ => apply (elimT (@leP a b)) in H
  | H : leq ?a ?b = false |- _ => apply negbT in H; rewrite -ltnNge in H
  | H : is_true (@eq_op _ ?a ?b) |- _ => apply (elimT (@eqP _ a b)) in H
  | H : is_true (~~ @eq_op _ ?a ?b) |- _ => apply (elimN (@eqP _ a b)) in H
  | H : @eq_op _ ?a ?b = false |- _ => apply (elimF (@eqP _ a b)) in H
  | H : is_true (_ && _) |- _ => apply (elimT andP) in H; destruct H
  | |- is_true (leq ?a ?b) => apply/leP
  | |- is_true (~~ leq ?a ?b) => rewrite -ltnNge
  | |- is_true (@eq_op _ ?a ?b) => apply/eqP
  | |- is_true (~~ @eq_op _ ?a ?b) => apply/eqP
  | |- is_true (_ && _) => apply/andP; split
  end;
  rewrite -?muln2 -?divn2;
  repeat match goal with H : context [double ?x] |- _ => rewrite -(muln2 x) in H end;
  change addn with Nat.add in *; change muln with Nat.mul in *; change subn with Nat.sub in *.
Ltac nlia := intros; nat_prep; simpl in *; lia.
Ltac nnia := intros; nat_prep; simpl in *; nia.
Ltac nring := rewrite -?muln2; repeat match goal with x := _ |- _ => clearbody x end;
  repeat match goal with |- context [expn ?a ?b] => move: (expn a b) => ? end; first [ring | change addn with Nat.add in *; change muln with Nat.mul in *; ring].

Goal forall a b c, a <= b -> b < c -> a.*2 < b + c + (c - b).
Proof. nlia. Qed.
Goal forall a b : nat, a != b -> (a <= b) = true -> a < b /\ b - a != 0.
Proof. split; nlia. Qed.
Goal forall a b : nat, (a + b) * a = a * b + a * a.
Proof. intros; nring. Qed.
