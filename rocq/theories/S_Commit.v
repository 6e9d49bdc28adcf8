(* Specification: what a well-formed parameter set is, and formal linear combinations. *)
Set Warnings "-notation-overridden,-ambiguous-paths".
From mathcomp Require Import all_ssreflect all_algebra.
From Verif Require Import M_Env M_Commit.
Import GRing.Theory.
Set Implicit Arguments.
Unset Strict Implicit.
Local Open Scope ring_scope.

Section Spec.
Variables (F B : fieldType) (G : lmodType F).

(* n = 2^k generators, and g_lagrange their inverse DFT: g_lagrange_i is the combination of
   the generators by the coefficients of the i-th Lagrange basis polynomial. *)
Record params_ok (E : env B G) (ps : params G) : Prop := ParamsOk {
  ps_kS : (p_k ps <= e_S E)%N;
  ps_n : p_n ps = (2 ^ p_k ps)%N;
  ps_g : size (p_g ps) = (2 ^ p_k ps)%N;
  ps_gl : size (p_gl ps) = (2 ^ p_k ps)%N;
  ps_lagrange : forall i, (i < 2 ^ p_k ps)%N ->
    (p_gl ps)`_i = \sum_(j < 2 ^ p_k ps)
      (((2 ^ p_k ps)%:R)^-1 * ((e_rou E ^+ (2 ^ (e_S E - p_k ps)))^-1) ^+ (i * j)) *: (p_g ps)`_j
}.

(* The operations of MSM; OAdd adds another MSM, itself built by operations. *)
Inductive mop : Type :=
  | OTerm of F & G | OConst of F | OG of seq F | OW of F | OU of F | OScale of F
  | OAdd of seq mop.

(* the group element an operation sequence stands for *)
Fixpoint op_value (ps : params G) (v : G) (o : mop) {struct o} : G :=
  match o with
  | OTerm s P => v + s *: P
  | OConst c => v + c *: (p_g ps)`_0
  | OG s => v + \sum_(i < size (p_g ps)) s`_i *: (p_g ps)`_i
  | OW s => v + s *: p_w ps
  | OU s => v + s *: p_u ps
  | OScale z => z *: v
  | OAdd l => v + (fix go (v : G) (l : seq mop) : G :=
                     if l is o :: l' then go (op_value ps v o) l' else v) 0 l
  end.
Definition ops_value (ps : params G) (l : seq mop) : G := foldl (op_value ps) 0 l.

(* add_to_g_scalars is only called with vectors of length n *)
Fixpoint op_ok (n : nat) (o : mop) {struct o} : bool :=
  match o with
  | OG s => size s == n
  | OAdd l => (fix go (l : seq mop) : bool := if l is o :: l' then op_ok n o && go l' else true) l
  | _ => true
  end.

(* running the operations on an MSM *)
Fixpoint op_run (E : env B G) (ps : params G) (m : msm F B) (o : mop) {struct o} : option (msm F B) :=
  match o with
  | OTerm s P => append_term E m s P
  | OConst c => add_constant_term ps m c
  | OG s => add_to_g_scalars ps m s
  | OW s => Some (add_to_w_scalar m s)
  | OU s => Some (add_to_u_scalar m s)
  | OScale z => Some (msm_scale m z)
  | OAdd l => obind (add_msm ps m)
      ((fix go (m : msm F B) (l : seq mop) : option (msm F B) :=
          if l is o :: l' then obind (fun m => go m l') (op_run E ps m o) else Some m) msm_new l)
  end.
Fixpoint ops_run (E : env B G) (ps : params G) (m : msm F B) (l : seq mop) : option (msm F B) :=
  if l is o :: l' then obind (fun m => ops_run E ps m l') (op_run E ps m o) else Some m.
End Spec.
