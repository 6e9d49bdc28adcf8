(* Model of plonk/verifier/batch.rs and of multicore.rs TryFoldAndReduce. *)
Set Warnings "-notation-overridden,-ambiguous-paths".
From mathcomp Require Import all_ssreflect all_algebra.
From Verif Require Import Util M_Env M_Transcript M_Commit M_IPA M_Multiopen M_Keys M_Plonk.
Import GRing.Theory.
Set Implicit Arguments.
Unset Strict Implicit.
Local Open Scope ring_scope.

(* How the items 0, 1, ... of a batch are combined.  [SFold s i] is fold_op(s, item i) and
   [SReduce s s'] is reduce_op(s, s'); every occurrence starts from a fresh identity().
   Rayon is free to choose any such expression with the items in order; see [rayon] and
   [sequential]. *)
Inductive sched := SIdentity | SFold of sched & nat | SReduce of sched & sched.
Fixpoint items (s : sched) : seq nat :=
  match s with
  | SIdentity => [::]
  | SFold s i => rcons (items s) i
  | SReduce s s' => items s ++ items s'
  end.
(* multicore.rs:62-75: without the multicore feature, Iterator::try_fold *)
Definition sequential (n : nat) : sched := foldl SFold SIdentity (iota 0 n).
(* multicore.rs:44-60: a split of the items by rayon's plumbing: a leaf is a run of
   consecutive items; TryFold folds it from identity() and hands the result to a TryReduce
   folder, which starts from identity() too. *)
Inductive split := Leaf of nat | Node of split & split.
Fixpoint split_size (t : split) : nat := match t with Leaf k => k | Node a b => split_size a + split_size b end.
Fixpoint rayon (start : nat) (t : split) : sched :=
  match t with
  | Leaf k => SReduce SIdentity (foldl SFold SIdentity (iota start k))
  | Node a b => SReduce (rayon start a) (rayon (start + split_size a) b)
  end.

Section Batch.
Variables (F B : fieldType) (G : lmodType F) (E : env B G) (ps : params G).

(* verifier.rs:68-370 with batch.rs:33-44 BatchStrategy::process *)
Definition verify_proof_msm (vk : vkey G) (instances : seq (seq (seq F))) : R (msm F B) :=
  let! t := verify_proof_trace E ps vk instances in
  let! guard := mmap_err EOpening (mo_verify_proof E ps (vt_queries t) msm_new) in
  mlift (unwrap (use_challenges ps guard)).

(* batch.rs:46-50 BatchItem; 113-121: a fresh transcript per item *)
Definition batch_item := (seq (seq (seq F)) * seq nat)%type.
Definition item_msm (vk : vkey G) (it : batch_item) : res (msm F B) :=
  rbind (verify_proof_msm vk it.1 (Rst [::] it.2)) (fun q => Ok q.1).

(* batch.rs:87-98 accumulate_msm; None is a panic *)
Definition accumulate_msm (acc m : msm F B) (r : F) : res (msm F B) := unwrap (add_msm ps (msm_scale acc r) m).

(* one random scalar per accumulation step (batch.rs:94, OsRng) *)
Fixpoint tape (s : sched) : Type :=
  match s with
  | SIdentity => unit
  | SFold s _ => (F * tape s)%type
  | SReduce s s' => (F * (tape s * tape s'))%type
  end.
(* try_fold / try_reduce: the first error stops the computation *)
Fixpoint run_sched (results : seq (res (msm F B))) (s : sched) : tape s -> res (msm F B) :=
  match s return tape s -> res (msm F B) with
  | SIdentity => fun _ => Ok msm_new
  | SFold s i => fun t => rbind (run_sched results t.2) (fun acc =>
      rbind (nth Panic results i) (fun m => accumulate_msm acc m t.1))
  | SReduce s s' => fun t => rbind (run_sched results t.2.1) (fun acc =>
      rbind (run_sched results t.2.2) (fun m => accumulate_msm acc m t.1))
  end.
(* batch.rs:85-138 finalize *)
Definition finalize (vk : vkey G) (batch : seq batch_item) (s : sched) (t : tape s) : res bool :=
  match run_sched [seq item_msm vk it | it <- batch] t with
  | Ok m => unwrap (msm_eval E ps m)
  | Err _ => Ok false
  | Panic => Panic
  end.
End Batch.
