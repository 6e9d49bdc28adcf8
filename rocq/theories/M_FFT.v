(* Model of halo2_proofs/src/arithmetic.rs: best_fft, recursive_butterfly_arithmetic,
   log2_floor.  [G : FftGroup<Scalar>] is an arbitrary left module over a field. *)
Set Warnings "-notation-overridden,-ambiguous-paths".
From mathcomp Require Import all_ssreflect all_algebra.
From Verif Require Import Util.
Import GRing.Theory.
Set Implicit Arguments.
Unset Strict Implicit.
Local Open Scope ring_scope.

(* arithmetic.rs:379-389 log2_floor.  [while (1 << (pow+1)) <= num { pow += 1 }]; the
   loop runs at most [num] times, so [num] is enough fuel.  [assert!(num > 0)] -> None. *)
Fixpoint log2_floor_loop (fuel num pow : nat) : nat :=
  if fuel is f.+1 then
    if (2 ^ pow.+1 <= num)%N then log2_floor_loop f num pow.+1 else pow
  else pow.
Definition log2_floor (num : nat) : option nat :=
  if (0 < num)%N then Some (log2_floor_loop num num 0) else None.

(* arithmetic.rs:193-200 best_fft::bitreverse *)
Fixpoint bitreverse_loop (l n r : nat) : nat :=
  if l is l'.+1 then bitreverse_loop l' n./2 (r.*2 + odd n)%N else r.
Definition bitreverse (n l : nat) : nat := bitreverse_loop l n 0.

Section FFT.
Variables (F : fieldType) (V : lmodType F).

(* slice::swap (std); both indices are in range at the call site. *)
Definition swap (s : seq V) (i j : nat) : seq V :=
  set_nth 0 (set_nth 0 s i (nth 0 s j)) j (nth 0 s i).

(* arithmetic.rs:207-212: for k in 0..n { let rk = ..; if k < rk { a.swap(rk, k) } } *)
Definition bitrev_permute (log_n : nat) (a : seq V) : seq V :=
  foldl (fun a k => let rk := bitreverse k log_n in
                    if (k < rk)%N then swap a rk k else a)
        a (iota 0 (size a)).

(* arithmetic.rs:215-221: the scan producing 1, omega, omega^2, ... (n/2 entries). *)
Definition mk_twiddles (omega : F) (n : nat) : seq F :=
  traject (fun w => w * omega) 1 n./2.

(* arithmetic.rs:228-246 and 276-293: combine two halves in place.  The first pair uses
   twiddle one, the pair number i+1 uses twiddles[(i+1)*twiddle_chunk].
   An out-of-range twiddle read is modelled by the arbitrary value [oob].
   Empty halves (a panic in split_at_mut(1)) give [::]. *)
Definition butterfly (oob : F) (twiddles : seq F) (tc : nat) (left right : seq V) : seq V :=
  match left, right with
  | a :: left', b :: right' =>
      let ps := [seq (let t := nth oob twiddles ((p.1).+1 * tc)%N *: p.2.2 in
                      (p.2.1 + t, p.2.1 - t))
                | p <- zip (iota 0 (size left')) (zip left' right')] in
      ((a + b) :: unzip1 ps) ++ ((a - b) :: unzip2 ps)
  | _, _ => [::]
  end.

(* arithmetic.rs:224-250: the iterative path.  [steps] more passes to do. *)
Fixpoint fft_iter (oob : F) (steps chunk tc : nat) (twiddles : seq F) (a : seq V) : seq V :=
  if steps is s.+1 then
    fft_iter oob s (chunk * 2)%N tc./2 twiddles
      (flatten [seq butterfly oob twiddles tc (take chunk./2 c) (drop chunk./2 c)
               | c <- chunks chunk a])
  else a.

(* arithmetic.rs:258-295 recursive_butterfly_arithmetic.  The two recursive calls work on
   disjoint halves, so multicore::join is the pair of their results.  [fuel] bounds the
   recursion depth; None = out of fuel (Rust: unbounded recursion / panic). *)
Fixpoint recursive_butterfly (oob : F) (fuel : nat) (a : seq V) (n tc : nat)
    (twiddles : seq F) : option (seq V) :=
  if fuel is f.+1 then
    if (n == 2)%N then
      if a is [:: x; y] then Some [:: x + y; x - y] else None
    else
      match recursive_butterfly oob f (take n./2 a) n./2 (tc * 2)%N twiddles,
            recursive_butterfly oob f (drop n./2 a) n./2 (tc * 2)%N twiddles with
      | Some l, Some r => Some (butterfly oob twiddles tc l r)
      | _, _ => None
      end
  else None.

(* arithmetic.rs:192-255 best_fft.  [threads] is multicore::current_num_threads().
   None = panic (assert_eq!(n, 1 << log_n), zero threads, runaway recursion). *)
Definition best_fft (oob : F) (threads : nat) (a : seq V) (omega : F) (log_n : nat)
    : option (seq V) :=
  if log2_floor threads is Some log_threads then
    let n := size a in
    if n == (2 ^ log_n)%N then
      let a1 := bitrev_permute log_n a in
      let twiddles := mk_twiddles omega n in
      if (log_n <= log_threads)%N
      then Some (fft_iter oob log_n 2 n./2 twiddles a1)
      else recursive_butterfly oob n a1 n 1 twiddles
    else None
  else None.
End FFT.
