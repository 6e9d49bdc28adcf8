(* C47: Value<V> propagates "unknown" and otherwise computes pointwise. *)
Set Warnings "-notation-overridden,-ambiguous-paths".
From mathcomp Require Import all_ssreflect all_algebra.
From Verif Require Import FieldTac Util M_Env M_Assigned P_Assigned M_Value Ex_Field.
Import GRing.Theory.
Set Implicit Arguments.
Unset Strict Implicit.
Local Open Scope ring_scope.

(* Specification: known(x) and unknown() are the two constructors of a value (value.rs:26-43). *)
Definition is_known {V : Type} (v : value V) : Prop := exists x, v = known x.
Definition is_unknown {V : Type} (v : value V) : Prop := v = unknown.

Section Generic.
Variables V W : Type.

Lemma value_cases (T : Type) (v : value T) : is_unknown v \/ is_known v.
Proof. by case: v => [[x|]]; [right; exists x|left]. Qed.

(* every value is exactly one of unknown() and known(x), and x is determined *)
Theorem C47_known_or_unknown (v : value V) :
  [/\ is_unknown v \/ is_known v, ~ (is_unknown v /\ is_known v) &
      forall x y, v = known x -> v = known y -> x = y].
Proof.
split; [exact: value_cases|by case=> -> [x]|by move=> x y -> []].
Qed.

(* assign fails exactly on unknown values *)
Theorem C47_assign (v : value V) :
  (forall x, v_assign v = Ok x <-> v = known x) /\ (v_assign v = Err ESynthesis <-> is_unknown v) /\
  v_assign v <> Panic.
Proof.
split; first by case: v => [[x|]] y; split=> //; case=> ->.
by case: v => [[x|]].
Qed.

(* an assertion panics, and an error check fails, exactly on known values for which the
   predicate says so *)
Theorem C47_assert (v : value V) f : v_assert_if_known v f = None <-> exists2 x, v = known x & f x = false.
Proof.
case: v => [[x|]] /=; rewrite /v_assert_if_known /=; last by split=> // -[y].
case e: (f x); split=> //; first by case=> y [<-]; rewrite e.
by exists x.
Qed.
Theorem C47_error_if (v : value V) f :
  (v_error_if_known_and v f = Err ESynthesis <-> exists2 x, v = known x & f x) /\
  (v_error_if_known_and v f = Ok tt <-> forall x, v = known x -> f x = false).
Proof.
case: v => [[x|]] /=; rewrite /v_error_if_known_and /=; last first.
  by split; split=> //; case.
case e: (f x); split; split=> //.
- by exists x.
- by move/(_ x erefl); rewrite e.
- by case=> y [<-]; rewrite e.
by move=> _ y [<-].
Qed.

Theorem C47_map (f : V -> W) (v : value V) :
  (is_unknown (v_map f v) <-> is_unknown v) /\ (forall x, v = known x -> v_map f v = known (f x)).
Proof. by split=> [|x ->]; first by case: v => [[x|]]. Qed.

Theorem C47_and_then (v : value V) (f : V -> value W) :
  (is_unknown v -> is_unknown (v_and_then v f)) /\ (forall x, v = known x -> v_and_then v f = f x).
Proof. by split=> [->|x ->]. Qed.

Theorem C47_zip (v : value V) (w : value W) :
  (is_unknown (v_zip v w) <-> is_unknown v \/ is_unknown w) /\
  (forall x y, v = known x -> w = known y -> v_zip v w = known (x, y)).
Proof.
split; last by move=> x y -> ->.
by case: v w => [[x|]] [[y|]]; rewrite /is_unknown; split=> //; auto; case.
Qed.

Theorem C47_unzip (v : value (V * W)) :
  (is_unknown v -> v_unzip v = (unknown, unknown)) /\
  (forall a b, v = known (a, b) -> v_unzip v = (known a, known b)).
Proof. by split=> [->|a b ->]. Qed.

Lemma overwriteE (arr : seq V) : overwrite (nseq (size arr) unknown) arr = [seq known x | x <- arr].
Proof. by elim: arr => //= x arr ->. Qed.

(* Value<[V; LEN]>: the array has LEN entries *)
Theorem C47_transpose_array len (v : value (seq V)) :
  (is_unknown v -> v_transpose_array len v = nseq len unknown) /\
  (forall arr, size arr = len -> v = known arr -> v_transpose_array len v = [seq known x | x <- arr]).
Proof.
by split=> [->|arr <- ->] //; exact: overwriteE.
Qed.

Theorem C47_transpose_vec (v : value (seq V)) len :
  (is_unknown v -> v_transpose_vec v len = Some (nseq len unknown)) /\
  (forall vs, v = known vs ->
     v_transpose_vec v len = if size vs == len then Some [seq known x | x <- vs] else None).
Proof.
split=> [->|vs ->] //; rewrite /v_transpose_vec /=; congr Some; by elim: len 0%N => //= n IH i; rewrite IH. 
Qed.

(* collecting an iterator of values: all known, or unknown *)
Theorem C47_from_iter (vs : seq (value V)) :
  (is_unknown (v_from_iter vs) <-> List.Exists is_unknown vs) /\
  (forall xs, v_from_iter vs = known xs <-> vs = [seq known x | x <- xs]).
Proof.
have key : forall xs, v_from_iter vs = known xs <-> vs = [seq known x | x <- xs].
  elim: vs => [|v vs IH] xs; first by split=> [[<-]|]; case: xs.
  case: v => [[x|]]; rewrite /v_from_iter /=; last by split=> //; case: xs.
  case e: (collect_options _) => [ys|]; split=> //.
  - case=> <- /=; congr (_ :: _); by apply/IH; rewrite /v_from_iter e.
  - case: xs => //= z zs [<-] /IH; by rewrite /v_from_iter e => -[->].
  by case: xs => //= z zs [<-] /IH; rewrite /v_from_iter e.
split=> //; split.
  move=> h; elim: vs h {key} => [|[[x|]] vs IH] //; last by left.
  rewrite /v_from_iter /is_unknown /=; case e: (collect_options _) => [ys|] // _; right; apply: IH.
  by rewrite /is_unknown /v_from_iter e.
elim => {key vs} [v vs ->|v vs _] //; rewrite /is_unknown /v_from_iter /= => -[->].
by case: (inner v).
Qed.
End Generic.

(* Specification: the arithmetic expressions a circuit author can write over values of
   assigned field elements, with field constants, and what they mean. *)
Inductive wterm (F : Type) :=
  | WVar of nat | WNeg of wterm F | WAdd of wterm F & wterm F | WSub of wterm F & wterm F
  | WMul of wterm F & wterm F | WAddV of wterm F & nat | WSubV of wterm F & nat | WMulV of wterm F & nat
  | WAddF of wterm F & F | WSubF of wterm F & F | WMulF of wterm F & F
  | WDouble of wterm F | WSquare of wterm F | WCube of wterm F | WInvert of wterm F.

Section Terms.
Variable F : fieldType.
Implicit Type t : wterm F.

(* the variables of assigned type and of field type occurring in a term *)
Fixpoint uses t (i : nat) : Prop :=
  match t with
  | WVar j => i = j
  | WAdd a b | WSub a b | WMul a b => uses a i \/ uses b i
  | WNeg a | WAddV a _ | WSubV a _ | WMulV a _ | WAddF a _ | WSubF a _ | WMulF a _
  | WDouble a | WSquare a | WCube a | WInvert a => uses a i
  end.
Fixpoint uses_field t (i : nat) : Prop :=
  match t with
  | WVar _ => False
  | WAdd a b | WSub a b | WMul a b => uses_field a i \/ uses_field b i
  | WAddV a j | WSubV a j | WMulV a j => uses_field a i \/ i = j
  | WNeg a | WAddF a _ | WSubF a _ | WMulF a _
  | WDouble a | WSquare a | WCube a | WInvert a => uses_field a i
  end.
Fixpoint meaning (x xf : nat -> F) t : F :=
  match t with
  | WVar j => x j
  | WNeg a => - meaning x xf a
  | WAdd a b => meaning x xf a + meaning x xf b
  | WSub a b => meaning x xf a - meaning x xf b
  | WMul a b => meaning x xf a * meaning x xf b
  | WAddV a j => meaning x xf a + xf j
  | WSubV a j => meaning x xf a - xf j
  | WMulV a j => meaning x xf a * xf j
  | WAddF a f => meaning x xf a + f
  | WSubF a f => meaning x xf a - f
  | WMulF a f => meaning x xf a * f
  | WDouble a => meaning x xf a + meaning x xf a
  | WSquare a => meaning x xf a * meaning x xf a
  | WCube a => meaning x xf a ^+ 3
  | WInvert a => (meaning x xf a)^-1                 (* MathComp: 0^-1 = 0 *)
  end.

(* the program: the operators of value.rs *)
Fixpoint wrun (rho : nat -> value (assigned F)) (rf : nat -> value F) t : value (assigned F) :=
  match t with
  | WVar j => rho j
  | WNeg a => v_neg (wrun rho rf a)
  | WAdd a b => v_add (wrun rho rf a) (wrun rho rf b)
  | WSub a b => v_sub (wrun rho rf a) (wrun rho rf b)
  | WMul a b => v_mul (wrun rho rf a) (wrun rho rf b)
  | WAddV a j => v_add_v (wrun rho rf a) (rf j)
  | WSubV a j => v_sub_v (wrun rho rf a) (rf j)
  | WMulV a j => v_mul_v (wrun rho rf a) (rf j)
  | WAddF a f => v_add_f (wrun rho rf a) f
  | WSubF a f => v_sub_f (wrun rho rf a) f
  | WMulF a f => v_mul_f (wrun rho rf a) f
  | WDouble a => v_double (wrun rho rf a)
  | WSquare a => v_square (wrun rho rf a)
  | WCube a => v_cube (wrun rho rf a)
  | WInvert a => v_invert (wrun rho rf a)
  end.

Lemma op1_unknown (V O : Type) (f : V -> O) v : is_unknown (v_op1 f v) <-> is_unknown v.
Proof. by case: v => [[x|]]. Qed.
Lemma op2_unknown (V U O : Type) (f : V -> U -> O) v w :
  is_unknown (v_op2 f v w) <-> is_unknown v \/ is_unknown w.
Proof.
by case: v w => [[x|]] [[y|]]; split; rewrite /is_unknown //; auto; case.
Qed.
Lemma op2_known (V U O : Type) (f : V -> U -> O) x y : v_op2 f (known x) (known y) = known (f x y).
Proof. by []. Qed.

(* unknown iff something used is unknown *)
Theorem C47_unknown rho rf t :
  is_unknown (wrun rho rf t) <->
  (exists2 i, uses t i & is_unknown (rho i)) \/ (exists2 i, uses_field t i & is_unknown (rf i)).
Proof.
have one : forall a, (is_unknown (wrun rho rf a) <->
    (exists2 i, uses a i & is_unknown (rho i)) \/ (exists2 i, uses_field a i & is_unknown (rf i))) ->
  forall j, is_unknown (wrun rho rf a) \/ is_unknown (rf j) <->
  (exists2 i, uses a i & is_unknown (rho i)) \/ (exists2 i, uses_field a i \/ i = j & is_unknown (rf i)).
  move=> a [h1 h2] j; split.
    case=> [/h1[[i u k]|[i u k]]|k]; first (by left; exists i); right; last by exists j; auto.
    by exists i; auto.
  case=> [[i u k]|[i [u|->] k]]; [left; apply: h2; left|left; apply: h2; right|by right]; by exists i.
have two : forall a b, (is_unknown (wrun rho rf a) <->
    (exists2 i, uses a i & is_unknown (rho i)) \/ (exists2 i, uses_field a i & is_unknown (rf i))) ->
   (is_unknown (wrun rho rf b) <->
    (exists2 i, uses b i & is_unknown (rho i)) \/ (exists2 i, uses_field b i & is_unknown (rf i))) ->
  (is_unknown (wrun rho rf a) \/ is_unknown (wrun rho rf b) <->
    (exists2 i, uses a i \/ uses b i & is_unknown (rho i)) \/
    (exists2 i, uses_field a i \/ uses_field b i & is_unknown (rf i))).
  move=> a b [ha1 ha2] [hb1 hb2]; split.
    by case=> [/ha1|/hb1] [[i u k]|[i u k]]; [left|right|left|right]; exists i; auto.
  by case=> [[i [u|u] k]|[i [u|u] k]]; [left; apply: ha2; left|right; apply: hb2; left
    |left; apply: ha2; right|right; apply: hb2; right]; exists i.
have zero : forall a f op, is_unknown (@v_op2 (assigned F) F (assigned F) op a (known f)) <-> is_unknown a.
  by move=> a f op; rewrite op2_unknown; split=> [[]|] //; left.
elim: t => /= [j|a IH|a IHa b IHb|a IHa b IHb|a IHa b IHb|a IH j|a IH j|a IH j|a IH f|a IH f|a IH f
  |a IH|a IH|a IH|a IH].
- by split=> [h|[[i -> //]|[i []]]]; left; exists j.
- by rewrite op1_unknown.
- by rewrite op2_unknown; apply: two.
- by rewrite op2_unknown; apply: two.
- by rewrite op2_unknown; apply: two.
- by rewrite op2_unknown; apply: one.
- by rewrite op2_unknown; apply: one.
- by rewrite op2_unknown; apply: one.
- by rewrite zero.
- by rewrite zero.
- by rewrite zero.
- by rewrite op1_unknown.
- by rewrite op1_unknown.
- by rewrite op1_unknown.
by rewrite op1_unknown.
Qed.

(* and otherwise known, with the expected field value *)
Theorem C47_known rho rf (a : nat -> assigned F) (xf : nat -> F) t :
  (forall i, uses t i -> rho i = known (a i)) ->
  (forall i, uses_field t i -> rf i = known (xf i)) ->
  exists2 r, wrun rho rf t = known r &
    denote r = meaning (fun i => denote (a i)) xf t /\
    v_evaluate (wrun rho rf t) = known (meaning (fun i => denote (a i)) xf t).
Proof.
move=> h1 h2; suff : exists2 r, wrun rho rf t = known r & denote r = meaning (fun i => denote (a i)) xf t.
  case=> r e d; exists r => //; split=> //; rewrite e /v_evaluate /v_op1 /= /known; congr (Value (Some _)).
  by rewrite C09_evaluate.
elim: t h1 h2 => /= [j|t IH|t IHt b IHb|t IHt b IHb|t IHt b IHb|t IH j|t IH j|t IH j|t IH f|t IH f|t IH f
  |t IH|t IH|t IH|t IH] h1 h2.
- by exists (a j) => //; apply: h1.
- by have [r -> <-] := IH h1 h2; exists (a_neg r) => //; rewrite C09_neg.
- have [r -> <-] := IHt (fun i u => h1 i (or_introl u)) (fun i u => h2 i (or_introl u)).
  have [q -> <-] := IHb (fun i u => h1 i (or_intror u)) (fun i u => h2 i (or_intror u)).
  by exists (a_add r q) => //; rewrite C09_add.
- have [r -> <-] := IHt (fun i u => h1 i (or_introl u)) (fun i u => h2 i (or_introl u)).
  have [q -> <-] := IHb (fun i u => h1 i (or_intror u)) (fun i u => h2 i (or_intror u)).
  by exists (a_sub r q) => //; rewrite C09_sub.
- have [r -> <-] := IHt (fun i u => h1 i (or_introl u)) (fun i u => h2 i (or_introl u)).
  have [q -> <-] := IHb (fun i u => h1 i (or_intror u)) (fun i u => h2 i (or_intror u)).
  by exists (a_mul r q) => //; rewrite C09_mul.
- have [r -> <-] := IH h1 (fun i u => h2 i (or_introl u)).
  rewrite (h2 j) ?orbT; last by right.
  by exists (a_add_f r (xf j)) => //; have [-> _] := C09_field_operand r (xf j).
- have [r -> <-] := IH h1 (fun i u => h2 i (or_introl u)).
  rewrite (h2 j) ?orbT; last by right.
  by exists (a_sub_f r (xf j)) => //; have [_ [-> _]] := C09_field_operand r (xf j).
- have [r -> <-] := IH h1 (fun i u => h2 i (or_introl u)).
  rewrite (h2 j) ?orbT; last by right.
  by exists (a_mul_f r (xf j)) => //; have [_ [_ ->]] := C09_field_operand r (xf j).
- have [r -> <-] := IH h1 h2.
  by exists (a_add_f r f) => //; have [-> _] := C09_field_operand r f.
- have [r -> <-] := IH h1 h2.
  by exists (a_sub_f r f) => //; have [_ [-> _]] := C09_field_operand r f.
- have [r -> <-] := IH h1 h2.
  by exists (a_mul_f r f) => //; have [_ [_ ->]] := C09_field_operand r f.
- by have [r -> <-] := IH h1 h2; exists (a_double r) => //; rewrite C09_double.
- by have [r -> <-] := IH h1 h2; exists (a_square r) => //; rewrite C09_square.
- by have [r -> <-] := IH h1 h2; exists (a_cube r) => //; rewrite C09_cube.
have [r -> <-] := IH h1 h2; exists (a_invert r) => //; rewrite C09_invert.
by case: eqP => [->|_]; rewrite ?invr0 ?div1r.
Qed.

(* Value<F> into Value<Assigned<F>> and back *)
Theorem C47_into_field (v : value F) : v_evaluate (v_of_field v) = v.
Proof. by case: v => [[x|]]. Qed.
End Terms.

Print Assumptions C47_assign.
Print Assumptions C47_from_iter.
Print Assumptions C47_unknown.
Print Assumptions C47_known.

(* 1/x + y with x = 0: known, and 1/0 counts as 0; with x unknown: unknown *)
Example C47_case :
  let rho x := fun i => nth unknown [:: x; known (ATrivial (5%:R : K97_fieldType))] i in
  let t := WAdd (WInvert (WVar _ 0)) (WVar _ 1) in
  (inner (v_evaluate (wrun (rho (known (ATrivial 0))) (fun _ => unknown) t)) == Some 5%:R) &&
  ~~ isSome (inner (wrun (rho unknown) (fun _ => unknown) t)).
Proof. vm_compute. reflexivity. Qed.
