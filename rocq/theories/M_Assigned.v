(* Model of halo2_proofs/src/plonk/assigned.rs (Assigned<F>) and of
   poly.rs:135-180 (batch_invert_assigned, Polynomial<Assigned<F>>::invert).
   The by-reference and assign-operator variants of the operators (which only forward) are
   identified with the by-value ones. *)
Set Warnings "-notation-overridden,-ambiguous-paths".
From mathcomp Require Import all_ssreflect all_algebra.
From Verif Require Import Util M_Poly.
Import GRing.Theory.
Set Implicit Arguments.
Unset Strict Implicit.
Local Open Scope ring_scope.

Section Assigned.
Variable F : fieldType.

(* assigned.rs:10-19 enum Assigned *)
Inductive assigned := AZero | ATrivial of F | ARational of F & F.

(* ff::Field::invert (external): CtOption, none on zero *)
Definition ff_invert (x : F) : option F := if x == 0 then None else Some x^-1.

(* assigned.rs:290-299 is_zero_vartime *)
Definition a_is_zero (a : assigned) : bool :=
  match a with
  | AZero => true
  | ATrivial x => x == 0
  | ARational n d => (n == 0) || (d == 0)
  end.

(* assigned.rs:44-70 PartialEq::eq; the guarded or-pattern is tried left alternative first *)
Definition a_eq (a b : assigned) : bool :=
  match a, b with
  | AZero, AZero => true
  | AZero, x => a_is_zero x
  | x, AZero => a_is_zero x
  | ATrivial x, ATrivial y => x == y
  | ATrivial x, ARational n d => if d == 0 then a_is_zero a else x * d == n
  | ARational n d, ATrivial x => if d == 0 then a_is_zero b else x * d == n
  | ARational ln ld, ARational rn rd =>
      if ld == 0 then a_is_zero b
      else if rd == 0 then a_is_zero a
      else ln * rd == ld * rn
  end.

(* assigned.rs:74-83 Neg *)
Definition a_neg (a : assigned) : assigned :=
  match a with
  | AZero => AZero
  | ATrivial n => ATrivial (- n)
  | ARational n d => ARational (- n) d
  end.

(* assigned.rs:92-121 Add *)
Definition a_add (a b : assigned) : assigned :=
  match a, b with
  | AZero, _ => b
  | _, AZero => a
  | ATrivial x, ATrivial y => ATrivial (x + y)
  | ARational n d, ATrivial o => if d == 0 then b else ARational (n + d * o) d
  | ATrivial o, ARational n d => if d == 0 then a else ARational (n + d * o) d
  | ARational ln ld, ARational rn rd =>
      if ld == 0 then b else if rd == 0 then a
      else ARational (ln * rd + ld * rn) (ld * rd)
  end.
(* assigned.rs:123-128 Add<F> *)
Definition a_add_f (a : assigned) (f : F) := a_add a (ATrivial f).

(* assigned.rs:171-183 Sub, Sub<F> *)
Definition a_sub (a b : assigned) : assigned := a_add a (a_neg b).
Definition a_sub_f (a : assigned) (f : F) := a_add_f a (- f).

(* assigned.rs:225-245 Mul, 247-252 Mul<F> *)
Definition a_mul (a b : assigned) : assigned :=
  match a, b with
  | AZero, _ | _, AZero => AZero
  | ATrivial x, ATrivial y => ATrivial (x * y)
  | ARational n d, ATrivial o | ATrivial o, ARational n d => ARational (n * o) d
  | ARational ln ld, ARational rn rd => ARational (ln * rn) (ld * rd)
  end.
Definition a_mul_f (a : assigned) (f : F) := a_mul a (ATrivial f).

(* assigned.rs:273-288 numerator, denominator *)
Definition a_numerator (a : assigned) : F :=
  match a with AZero => 0 | ATrivial x => x | ARational n _ => n end.
Definition a_denominator (a : assigned) : option F :=
  match a with AZero | ATrivial _ => None | ARational _ d => Some d end.

(* assigned.rs:301-311 double *)
Definition a_double (a : assigned) : assigned :=
  match a with
  | AZero => AZero | ATrivial x => ATrivial (x + x) | ARational n d => ARational (n + n) d
  end.
(* assigned.rs:313-323 square *)
Definition a_square (a : assigned) : assigned :=
  match a with
  | AZero => AZero | ATrivial x => ATrivial (x * x) | ARational n d => ARational (n * n) (d * d)
  end.
(* assigned.rs:325-329 cube *)
Definition a_cube (a : assigned) : assigned := a_mul (a_square a) a.
(* assigned.rs:331-338 invert *)
Definition a_invert (a : assigned) : assigned :=
  match a with
  | AZero => AZero | ATrivial x => ARational 1 x | ARational n d => ARational d n
  end.
(* assigned.rs:340-356 evaluate *)
Definition a_evaluate (a : assigned) : F :=
  match a with
  | AZero => 0
  | ATrivial x => x
  | ARational n d => if d == 1 then n else n * odflt 0 (ff_invert d)
  end.

(* poly.rs:135-162 batch_invert_assigned.  The flat_map/filter_map iterator over the
   denominators is the list of all nontrivial denominators, column by column, row by row;
   the external batch inversion updates them in place, modelled by writing the inverted list
   back in the same order. *)
Definition nontrivial (dss : seq (seq (option F))) : seq F := flatten (map (pmap id) dss).
Fixpoint write_back_col (ds : seq (option F)) (vs : seq F) : seq (option F) * seq F :=
  match ds with
  | [::] => ([::], vs)
  | None :: ds' => let: (r, vs') := write_back_col ds' vs in (None :: r, vs')
  | Some d :: ds' =>
      match vs with
      | v :: vs0 => let: (r, vs') := write_back_col ds' vs0 in (Some v :: r, vs')
      | [::] => (ds, [::])
      end
  end.
Fixpoint write_back (dss : seq (seq (option F))) (vs : seq F) : seq (seq (option F)) :=
  if dss is ds :: dss' then
    let: (r, vs') := write_back_col ds vs in r :: write_back dss' vs'
  else [::].

(* poly.rs:165-179 invert; None = the length assertion fails *)
Definition poly_invert (col : seq assigned) (inv_denoms : seq F) : option (seq F) :=
  if size inv_denoms == size col then
    Some [seq a_numerator p.1 * p.2 | p <- zip col inv_denoms]
  else None.

Fixpoint sequence {T} (s : seq (option T)) : option (seq T) :=
  if s is x :: s' then obind (fun a => omap (cons a) (sequence s')) x else Some [::].

Definition batch_invert_assigned (cols : seq (seq assigned)) : option (seq (seq F)) :=
  let dens := map (map a_denominator) cols in
  let dens' := write_back dens (batch_invert (nontrivial dens)) in
  sequence [seq poly_invert p.1 (map (odflt 1) p.2) | p <- zip cols dens'].
End Assigned.
