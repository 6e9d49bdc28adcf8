(* External interfaces used by every model from here on, gathered in one record:
   field encodings, curve point encodings, the hash, the RNG, the thread pool.
   They are parameters of the model: nothing is assumed of them except where a theorem
   says [env_ok]. *)
Set Warnings "-notation-overridden,-ambiguous-paths".
From mathcomp Require Import all_ssreflect all_algebra.
From Verif Require Import Util M_FFT M_Multiexp M_Poly P_Multiexp.
Import GRing.Theory.
Set Implicit Arguments.
Unset Strict Implicit.
Local Open Scope ring_scope.

(* plonk/error.rs:11-45 Error, poly/mod Error (poly.rs: OpeningError, SamplingError) and
   io::Error, in one type *)
Inductive error : Type :=
  | EIo | EOpening | ESampling | EConstraintSystemFailure | EInvalidInstances
  | EInstanceTooLarge | ESynthesis | EBoundsFailure | ENotEnoughRows | ENotEnoughColumns
  | EColumnNotInPermutation | ENotEnoughColumnsForConstants | ETable
  | EIllegalHashFromPrivatePoint | EProtocol.

(* A Rust computation: Result::Ok, Result::Err or a panic *)
Inductive res (A : Type) : Type := Ok of A | Err of error | Panic.
Arguments Err {A}. Arguments Panic {A}.
Definition rbind {A C : Type} (x : res A) (f : A -> res C) : res C :=
  match x with Ok a => f a | Err e => Err e | Panic => Panic end.
(* unwrap / assert: None is a panic *)
Definition unwrap {A : Type} (x : option A) : res A := if x is Some a then Ok a else Panic.
(* ok_or(e) *)
Definition ok_or {A : Type} (e : error) (x : option A) : res A := if x is Some a then Ok a else Err e.
(* .map_err(|_| e) *)
Definition map_err {A : Type} (e : error) (x : res A) : res A :=
  match x with Err _ => Err e | y => y end.

Section Env.
Variables (F B : fieldType) (G : lmodType F).

Record env := Env {
  e_threads : nat;                        (* multicore::current_num_threads *)
  e_ceil_ln : nat -> nat;                 (* (n as f64).ln().ceil() *)
  e_sched : seq F -> seq G -> redtree;    (* rayon's reduction tree in best_multiexp *)
  e_repr : F -> seq nat;                  (* PrimeField::to_repr, scalar field *)
  e_from_repr : seq nat -> option F;      (* PrimeField::from_repr *)
  e_brepr : B -> seq nat;                 (* to_repr, base field *)
  e_to_bytes : G -> seq nat;              (* GroupEncoding::to_bytes (compressed) *)
  e_from_bytes : seq nat -> option G;     (* GroupEncoding::from_bytes *)
  e_coords : G -> option (B * B);         (* CurveAffine::coordinates *)
  e_from_xy : B -> B -> option G;         (* CurveAffine::from_xy *)
  e_h2c : seq nat -> G;                   (* CurveExt::hash_to_curve("Halo2-Parameters") *)
  e_blake : seq nat -> seq nat;           (* Blake2b-512, personal "Halo2-Transcript" *)
  e_uniform : seq nat -> F;               (* FromUniformBytes<64> *)
  e_rng : nat -> F;                       (* the n-th Field::random draw *)
  e_rou : F; e_zeta : F; e_S : nat;       (* ROOT_OF_UNITY, ZETA, S *)
  e_delta : F;                            (* DELTA *)
  e_le : rel F                            (* Ord for the scalar field *)
}.

(* What the pasta curves provide. *)
Record env_ok (E : env) : Prop := EnvOk {
  ok_threads : (0 < e_threads E)%N;
  ok_ceil_ln : forall n, (32 <= n)%N -> (0 < e_ceil_ln E n <= 57)%N;
  (* every segment is reduced exactly once *)
  ok_sched : forall cs bs,
    perm_eq (fringe (e_sched E cs bs)) (iota 0 (256 %/ window (e_ceil_ln E) (size bs)).+1);
  ok_le_repr : le_repr (e_repr E);
  ok_repr : forall x, e_from_repr E (e_repr E x) = Some x;
  ok_repr_canon : forall b x, e_from_repr E b = Some x -> e_repr E x = b;
  ok_brepr_size : forall x, size (e_brepr E x) = 32%N;
  ok_brepr_inj : injective (e_brepr E);
  ok_bytes_size : forall P, size (e_to_bytes E P) = 32%N;
  ok_bytes : forall P, e_from_bytes E (e_to_bytes E P) = Some P;
  ok_bytes_canon : forall b P, e_from_bytes E b = Some P -> e_to_bytes E P = b;
  (* a point is the identity, or has coordinates which determine it; a vertical line meets
     the curve in a point and its opposite only *)
  ok_coords0 : forall P, (e_coords E P == None) = (P == 0);
  ok_coords : forall P Q x y y', e_coords E P = Some (x, y) -> e_coords E Q = Some (x, y') ->
    (y' == y) && (Q == P) || (y' == - y) && (Q == - P);
  ok_from_xy : forall x y P, e_from_xy E x y = Some P <-> e_coords E P = Some (x, y);
  ok_rou : (2 ^ e_S E).-primitive_root (e_rou E);
  ok_zeta : e_zeta E ^+ 3 = 1 /\ e_zeta E != 1;
  ok_le_total : total (e_le E);
  ok_le_trans : transitive (e_le E);
  ok_le_anti : antisymmetric (e_le E)
}.

(* arithmetic.rs:143-180 best_multiexp, run with this environment *)
Definition multiexp (E : env) (coeffs : seq F) (bases : seq G) : option G :=
  best_multiexp (e_repr E) (e_ceil_ln E) (e_threads E) (e_sched E coeffs bases) coeffs bases.

(* inner product, the specification of multiexp *)
Definition dotG (cs : seq F) (bs : seq G) : G := \sum_(i < size bs) cs`_i *: bs`_i.

Lemma multiexpE E cs bs : env_ok E -> size cs = size bs ->
  multiexp E cs bs = Some (dotG cs bs).
Proof.
move=> ok hs; apply: C01_best_multiexp_inner_product => //.
- exact: ok_le_repr.
- exact: ok_ceil_ln.
exact: ok_sched.
Qed.
Lemma multiexp_bad E cs bs : size cs <> size bs -> multiexp E cs bs = None.
Proof. exact: C01_best_multiexp_unequal_lengths_panic. Qed.
End Env.
