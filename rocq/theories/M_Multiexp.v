(* Model of halo2_proofs/src/arithmetic.rs: Bucket, Buckets, small_multiexp,
   best_multiexp, and of multicore.rs: the_best_reduce.
   A curve (affine or projective representation alike) is an arbitrary [G : lmodType F];
   the two representations of a point are identified.  [repr x] is [x.to_repr().as_ref()],
   a list of bytes (nat).  Panics are [None]. *)
Set Warnings "-notation-overridden,-ambiguous-paths".
From mathcomp Require Import all_ssreflect all_algebra.
From Verif Require Import Util.
Import GRing.Theory.
Set Implicit Arguments.
Unset Strict Implicit.
Local Open Scope ring_scope.

(* u64::from_le_bytes (std), for any number of bytes *)
Definition le_val (b : seq nat) : nat := foldr (fun x acc => x + 256 * acc)%N 0%N b.

(* arithmetic.rs:95-111 Buckets::get_at, on a 32-byte representation.  The 8-byte window is
   the bytes from skip_bytes on, zero padded on the right. *)
Definition get_at (c segment : nat) (bytes : seq nat) : nat :=
  let skip_bits := (segment * c)%N in
  let skip_bytes := (skip_bits %/ 8)%N in
  if (32 <= skip_bytes)%N then 0%N
  else
    let w := take 8 (drop skip_bytes bytes) in
    let v := w ++ nseq (8 - size w) 0%N in
    let tmp := (le_val v %/ 2 ^ (skip_bits - skip_bytes * 8))%N in
    (tmp %% 2 ^ c)%N.

(* multicore.rs:108-119 the_best_reduce / rayon reduce: some binary tree over the items,
   with any number of identity leaves. *)
Inductive redtree : Type := RId | RLeaf of nat | RNode of redtree & redtree.
Fixpoint fringe (t : redtree) : seq nat :=
  match t with RId => [::] | RLeaf i => [:: i] | RNode l r => fringe l ++ fringe r end.
Fixpoint reduce {T : Type} (id : T) (op : T -> T -> T) (item : nat -> T) (t : redtree) : T :=
  match t with
  | RId => id
  | RLeaf i => item i
  | RNode l r => op (reduce id op item l) (reduce id op item r)
  end.

Section Multiexp.
Variables (F : fieldType) (G : lmodType F) (repr : F -> seq nat).

(* arithmetic.rs:29-34 *)
Inductive bucket : Type := BNone | BAffine of G | BProjective of G.

(* arithmetic.rs:37-46 Bucket::add_assign *)
Definition bucket_add_assign (b : bucket) (other : G) : bucket :=
  match b with
  | BNone => BAffine other
  | BAffine a => BProjective (a + other)
  | BProjective a => BProjective (a + other)
  end.

(* arithmetic.rs:48-57 Bucket::add *)
Definition bucket_add (b : bucket) (other : G) : G :=
  match b with
  | BNone => other
  | BAffine a => other + a
  | BProjective a => other + a
  end.

(* arithmetic.rs:67-72 Buckets::new *)
Definition buckets_new (c : nat) : seq bucket := nseq (2 ^ c - 1) BNone.

(* arithmetic.rs:76-81: the loop filling the buckets; indexing past the end panics *)
Fixpoint buckets_fill (c i : nat) (bk : seq bucket) (ps : seq (F * G)) : option (seq bucket) :=
  if ps is (coeff, base) :: ps' then
    let seg := get_at c i (repr coeff) in
    if seg != 0%N then
      if (seg.-1 < size bk)%N then
        buckets_fill c i (set_nth BNone bk seg.-1 (bucket_add_assign (nth BNone bk seg.-1) base)) ps'
      else None
    else buckets_fill c i bk ps'
  else Some bk.

(* arithmetic.rs:74-93 Buckets::sum, on fresh buckets *)
Definition buckets_sum (c : nat) (coeffs : seq F) (bases : seq G) (i : nat) : option G :=
  if buckets_fill c i (buckets_new c) (zip coeffs bases) is Some bk then
    let st := foldl (fun (st : G * G) b =>
                let sum := bucket_add b st.2 in (st.1 + sum, sum)) (0, 0) (rev bk) in
    Some st.1
  else None.

Definition double (x : G) : G := x + x.

(* arithmetic.rs:116-136 small_multiexp.  The inner loop over coefficients for one
   (byte_idx, bit_idx); bases[coeff_idx] is only read when the bit is set. *)
Fixpoint small_inner (byte_idx bit_idx : nat) (reprs : seq (seq nat)) (bases : seq G) (acc : G)
    : option G :=
  if reprs is r :: reprs' then
    if odd (nth 0%N r byte_idx %/ 2 ^ bit_idx) then
      if bases is b :: bases' then small_inner byte_idx bit_idx reprs' bases' (acc + b)
      else None
    else small_inner byte_idx bit_idx reprs' (behead bases) acc
  else Some acc.
Definition bit_schedule : seq (nat * nat) :=
  [seq (B, b) | B <- rev (iota 0 32), b <- rev (iota 0 8)].
Definition small_multiexp (coeffs : seq F) (bases : seq G) : option G :=
  foldl (fun acc Bb => if acc is Some acc then
                         small_inner Bb.1 Bb.2 [seq repr x | x <- coeffs] bases (double acc)
                       else None)
        (Some 0) bit_schedule.

(* arithmetic.rs:146-152: window size; [ceil_ln n] is (n as f64).ln().ceil(), a parameter *)
Variable ceil_ln : nat -> nat.
Definition window (len : nat) : nat :=
  if (len < 4)%N then 1%N else if (len < 32)%N then 3%N else ceil_ln len.

Definition opt_add (a b : option G) : option G :=
  if a is Some a then if b is Some b then Some (a + b) else None else None.

(* arithmetic.rs:143-180 best_multiexp.  [sched] is the reduction tree rayon chooses for
   the segments.  c = 0 would divide by zero. *)
Definition best_multiexp (threads : nat) (sched : redtree) (coeffs : seq F) (bases : seq G)
    : option G :=
  if size coeffs == size bases then
    let c := window (size bases) in
    if c == 0%N then None else
    let nseg := (256 %/ c).+1 in
    if (threads < size coeffs)%N then
      reduce (Some 0) opt_add
        (fun i => omap (fun acc => iter (c * i) double acc) (buckets_sum c coeffs bases i)) sched
    else
      foldl (fun sum i => opt_add (omap (fun s => iter c double s) sum)
                                  (buckets_sum c coeffs bases i))
            (Some 0) (rev (iota 0 nseg))
  else None.
End Multiexp.
