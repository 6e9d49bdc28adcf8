(* C02: best_fft is the discrete Fourier transform under every schedule. *)
Set Warnings "-notation-overridden,-ambiguous-paths".
From mathcomp Require Import all_ssreflect all_algebra.
From Verif Require Import M_FFT S_FFT L_FFT.
Import GRing.Theory.
Local Open Scope ring_scope.

(* For every thread count (hence both the iterative and the recursive path), every module
   element vector of length 2^k and every omega whose 2^(k-1)-th power is -1 (i.e. every
   primitive 2^k-th root of unity), best_fft returns normally with the DFT.  [oob] is the
   value an out-of-range twiddle read would return: the result does not depend on it. *)
Theorem C02_best_fft_is_dft :
  forall (F : fieldType) (V : lmodType F) (oob : F) (threads : nat) (a : seq V) (w : F)
         (k : nat),
  (0 < threads)%N -> size a = (2 ^ k)%N -> ((0 < k)%N -> w ^+ (2 ^ k.-1) = -1) ->
  best_fft oob threads a w k = Some (dft w a).
Proof. exact: best_fft_correct. Qed.
Print Assumptions C02_best_fft_is_dft.

(* Any other length panics. *)
Theorem C02_best_fft_length_panics :
  forall (F : fieldType) (V : lmodType F) (oob : F) (threads : nat) (a : seq V) (w : F)
         (k : nat),
  size a <> (2 ^ k)%N -> best_fft oob threads a w k = None.
Proof.
by move=> F V oob th a w k /eqP/negbTE h; rewrite /best_fft; case: log2_floor => // ?; rewrite h.
Qed.
Print Assumptions C02_best_fft_length_panics.

(* Non-vacuity: over F_17, omega = 4 has order 4; both code paths. *)
Definition V17 := [lmodType 'F_17 of ('F_17)^o].
Example C02_hyps : ((4%:R : 'F_17) ^+ (2 ^ 2.-1) == -1) &&
  (best_fft (V := V17) 0 1 [:: 1; 2%:R; 3%:R; 4%:R] (4%:R : 'F_17) 2
   == Some [:: 10%:R; 7%:R; 15%:R; 6%:R]) &&
  (best_fft (V := V17) 0 8 [:: 1; 2%:R; 3%:R; 4%:R] (4%:R : 'F_17) 2
   == Some [:: 10%:R; 7%:R; 15%:R; 6%:R]).
Proof. by vm_compute. Qed.
