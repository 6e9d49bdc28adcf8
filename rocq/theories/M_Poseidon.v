(* Model of halo2_poseidon/src/lib.rs (permute, the sponge, ConstantLength, Hash) and of
   halo2_poseidon/src/mds.rs (generate_mds).  A state [F; T] is a sequence of length T, so
   indexing it below T never fails; panics are [None]. *)
Set Warnings "-notation-overridden,-ambiguous-paths".
From mathcomp Require Import all_ssreflect all_algebra.
From Verif Require Import Util M_Selectors M_Assigned.
Import GRing.Theory.
Set Implicit Arguments.
Unset Strict Implicit.
Local Open Scope ring_scope.

(* The rate part of a sponge, over any kind of words (the chip in halo2_gadgets uses it with cells). *)
Section Rate.
Variables (A : Type) (RATE : nat).
(* lib.rs:33 SpongeRate; lib.rs:193-200 Absorbing, Squeezing *)
Definition rate := seq (option A).
(* lib.rs:216-226 Absorbing::init_empty *)
Definition init_empty : rate := nseq RATE None.
(* lib.rs:229-242 Absorbing::absorb, and the loop of Sponge::absorb (lib.rs:314-319): None = full *)
Fixpoint rate_absorb (m : rate) (v : A) : option rate :=
  match m with
  | [::] => None
  | None :: m' => Some (Some v :: m')
  | Some x :: m' => omap (cons (Some x)) (rate_absorb m' v)
  end.
(* lib.rs:209-213 Absorbing::init_with *)
Definition init_with (v : A) : option rate := rate_absorb init_empty v.
(* lib.rs:271-284 Squeezing::squeeze, and the loop of Sponge::squeeze (lib.rs:359-363) *)
Fixpoint rate_squeeze (m : rate) : option (A * rate) :=
  match m with
  | [::] => None
  | Some x :: m' => Some (x, None :: m')
  | None :: m' => omap (fun r => (r.1, None :: r.2)) (rate_squeeze m')
  end.

End Rate.

Section Poseidon.
Variable F : fieldType.
(* const generics T and RATE *)
Variables T RATE : nat.

(* lib.rs:40-62 trait Spec, with the first two components of constants() *)
Record pspec := PSpec {
  sp_full_rounds : nat; sp_partial_rounds : nat; sp_sbox : F -> F;
  sp_round_constants : seq (seq F); sp_mds : seq (seq F) }.
Variable S : pspec.

(* lib.rs:117-127 apply_mds *)
Definition apply_mds (state : seq F) : seq F :=
  mkseq (fun i => foldl (fun acc j => acc + nth 0 (nth [::] (sp_mds S) i) j * nth 0 state j) 0 (iota 0 T)) T.
(* word + rc, over the zip of the state and the round constants (all of length T) *)
Definition add_constants (state rcs : seq F) : seq F := mapi (fun i w => w + nth 0 rcs i) state.
(* lib.rs:129-134 full_round *)
Definition full_round (state rcs : seq F) : seq F :=
  apply_mds [seq sp_sbox S w | w <- add_constants state rcs].
(* lib.rs:136-143 part_round *)
Definition part_round (state rcs : seq F) : seq F :=
  let state := add_constants state rcs in
  apply_mds (set_nth 0 state 0 (sp_sbox S (nth 0 state 0))).
(* lib.rs:107-154 permute: the rounds, zipped with the round constants *)
Definition permute (state : seq F) : seq F :=
  let r_f := (sp_full_rounds S %/ 2)%N in
  let rounds := nseq r_f full_round ++ nseq (sp_partial_rounds S) part_round ++ nseq r_f full_round in
  foldl (fun state rr => rr.1 state rr.2) state (zip rounds (sp_round_constants S)).

(* lib.rs:157-181 poseidon_sponge: (the new state, the squeezing mode); the input words are
   added to the first RATE state words, each must be present *)
Definition poseidon_sponge (state : seq F) (input : option (rate F)) : option (seq F * rate F) :=
  obind (fun state =>
    let state := permute state in
    Some (state, mkseq (fun i => if (i < T)%N then Some (nth 0 state i) else None) RATE))
  (if input is Some input then
     sequence (mapi (fun i w => if (i < size input)%N then omap (fun v => w + v) (nth None input i) else Some w) state)
   else Some state).

(* lib.rs:287-299 Sponge *)
Record sponge := Sponge { sg_mode : rate F; sg_state : seq F }.
(* lib.rs:305-319 Sponge::new; None: state[RATE] is out of range *)
Definition sponge_new (initial_capacity_element : F) : option sponge :=
  if (RATE < T)%N then Some (Sponge (nseq RATE None) (set_nth 0 (nseq T 0) RATE initial_capacity_element))
  else None.
(* lib.rs:321-338 Sponge::absorb *)
Definition sponge_absorb (s : sponge) (value : F) : option sponge :=
  if rate_absorb (sg_mode s) value is Some m then Some (Sponge m (sg_state s)) else
  obind (fun sm => omap (fun m => Sponge m sm.1) (init_with RATE value)) (poseidon_sponge (sg_state s) (Some (sg_mode s))).
(* lib.rs:340-356 finish_absorbing *)
Definition sponge_finish (s : sponge) : option sponge :=
  omap (fun sm => Sponge sm.2 sm.1) (poseidon_sponge (sg_state s) (Some (sg_mode s))).
(* lib.rs:359-382 Sponge::squeeze.  The loop runs at most twice if RATE > 0; if RATE = 0 it
   does not terminate, here [None]. *)
Definition sponge_squeeze (s : sponge) : option (F * sponge) :=
  if rate_squeeze (sg_mode s) is Some (v, m) then Some (v, Sponge m (sg_state s)) else
  obind (fun sm => omap (fun r => (r.1, Sponge r.2 sm.1)) (rate_squeeze sm.2)) (poseidon_sponge (sg_state s) None).
Fixpoint sponge_squeezes (n : nat) (s : sponge) : option (seq F) :=
  if n is n'.+1 then obind (fun r => omap (cons r.1) (sponge_squeezes n' r.2)) (sponge_squeeze s) else Some [::].

(* lib.rs:389-414 ConstantLength<L>: from_u128((L as u128) << 64); the padding *)
Definition capacity (L : nat) : F := L%:R * 2%:R ^+ 64.
Definition padding (L : nat) : option (seq F) :=
  if (RATE == 0)%N then None else Some (nseq ((L + RATE - 1) %/ RATE * RATE - L) 0).

(* foldl of fallible steps *)
Definition absorb_all (s : sponge) (vs : seq F) : option sponge :=
  foldl (fun s v => obind (fun s => sponge_absorb s v) s) (Some s) vs.
(* lib.rs:443-466 Hash::init, Hash::hash, for D = ConstantLength<L> and L = size message *)
Definition hash (message : seq F) : option F :=
  obind (fun s => obind (fun pad => obind (fun s => obind (fun s => omap fst (sponge_squeeze s))
    (sponge_finish s))
    (absorb_all s (message ++ pad)))
    (padding (size message)))
    (sponge_new (capacity (size message))).
End Poseidon.

(* ---------------------------------------------------------------- mds.rs *)
Section MDS.
Variable F : fieldType.
Variable T : nat.
(* grain.next_field_element_without_rejection(): an infinite stream (grain.rs) *)
Variable stream : nat -> F.

(* mds.rs:13-27: draw 2T elements until they are distinct.  [fuel] bounds the number of
   attempts; None: not found (the code loops for ever).  Returns xs, ys and the stream position *)
Fixpoint draw_distinct (fuel pos : nat) : option (seq F * seq F * nat) :=
  if fuel is f.+1 then
    let vals := mkseq (fun i => stream (pos + i)) (2 * T) in
    if uniq vals then Some (take T vals, drop T vals, pos + 2 * T)%N else draw_distinct f (pos + 2 * T)
  else None.
(* mds.rs:12-66: `select' matrices are skipped *)
Fixpoint select_points (fuel select pos : nat) : option (seq F * seq F) :=
  obind (fun r : seq F * seq F * nat => let: (xs, ys, pos) := r in
    if select is s.+1 then select_points fuel s pos else Some (xs, ys)) (draw_distinct fuel pos).
(* mds.rs:51-63 the Cauchy matrix; None: assert!(x_i + y_j != 0) *)
Definition cauchy (xs ys : seq F) : option (seq (seq F)) :=
  sequence (mkseq (fun i => sequence (mkseq (fun j =>
    let sum := nth 0 xs i + nth 0 ys j in if sum == 0 then None else Some sum^-1) T)) T).
(* mds.rs:82-97 the closure l; denominator.invert().unwrap() fails on equal elements *)
Definition lagrange_basis (xs : seq F) (j : nat) (x : F) : option F :=
  let x_j := nth 0 xs j in
  foldl (fun acc mx => obind (fun acc =>
      if mx.1 == j then Some acc else
      let denominator := x_j - mx.2 in
      if denominator == 0 then None else Some (acc * (x - mx.2) * denominator^-1)) acc)
    (Some 1) (zip (iota 0 (size xs)) xs).
(* mds.rs:98-103 *)
Definition cauchy_inv (xs ys : seq F) : option (seq (seq F)) :=
  let neg_ys := [seq - y | y <- ys] in
  sequence (mkseq (fun i => sequence (mkseq (fun j =>
    obind (fun a => omap (fun b => (nth 0 xs j - nth 0 neg_ys i) * a * b) (lagrange_basis neg_ys i (nth 0 xs j)))
          (lagrange_basis xs j (nth 0 neg_ys i))) T)) T).
(* mds.rs:7-106 generate_mds *)
Definition generate_mds (fuel select pos : nat) : option (seq (seq F) * seq (seq F)) :=
  obind (fun p : seq F * seq F => obind (fun mds => omap (fun inv => (mds, inv)) (cauchy_inv p.1 p.2))
    (cauchy p.1 p.2)) (select_points fuel select pos).
End MDS.
