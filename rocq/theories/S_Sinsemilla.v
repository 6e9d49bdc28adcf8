(* Specification of the Sinsemilla hash (Zcash protocol specification, section 5.4.1.9): words of the
   message select generators, and the accumulator is Acc := (Acc + S) + Acc with incomplete additions,
   which fail (None) when the two points have the same x-coordinate. *)
Set Warnings "-notation-overridden,-ambiguous-paths".
From mathcomp Require Import all_ssreflect all_algebra.
From Verif Require Import Util M_Env M_Circuit S_Circuit M_Value M_Region S_Region M_Layout M_Utilities M_Ecc S_Curve M_EccMul M_Sinsemilla P_Ecc S_Layout.
Import GRing.Theory.
Set Implicit Arguments.
Unset Strict Implicit.
Local Open Scope ring_scope.

Section Sinsemilla.
Variable F : fieldType.
Definition inc_add (P Q : F * F) : option (F * F) := if P.1 == Q.1 then None else padd (Some P) (Some Q).
Definition sins_step (S : F * F) (A : F * F) : option (F * F) := obind (fun R => inc_add R A) (inc_add A S).
Fixpoint hash_to_point_spec (S : nat -> F * F) (Q : F * F) (words : seq nat) : option (F * F) :=
  if words is m :: words' then obind (fun A => hash_to_point_spec S A words') (sins_step (S m) Q) else Some Q.
(* the K-bit words of an integer, least significant first *)
Definition words_of (K n x : nat) : seq nat := [seq (x %/ 2 ^ (K * i)) %% 2 ^ K | i <- iota 0 n]%N.
End Sinsemilla.

(* What a finished table says about a call of the chip. *)
Section Chip.
Variables (F : fieldType) (pf : prime_field F) (K : nat) (gens : seq (F * F)).
Variables (T : table F) (place : nat -> int) (c : sins_config).
(* every usable row of the three table columns holds a word and its generator *)
Definition generator_table (usable : int -> Prop) : Prop := forall row, usable row -> exists2 w, (w < 2 ^ K)%N &
  [seq t_cell T Fixed col row | col <- sins_columns c] = [:: w%:R; (nth (0, 0) gens w).1; (nth (0, 0) gens w).2].
(* the integer in a piece's cell *)
Definition piece_int (q : piece F) : nat := pf_val pf (cell_value T place (ac_cell (pc_cell q))).
(* the words of a message *)
Definition message_words (message : seq (piece F)) : seq nat :=
  flatten [seq words_of K (pc_words q) (piece_int q) | q <- message].
(* P and zss are what hashing the message from Q should return: every piece fits its number of words, the
   running sums are the pieces shifted right word by word, and P is the hash unless that is undefined *)
Definition hash_facts (Q : F * F) (message : seq (piece F)) (P : ecpoint F) (zss : seq (seq (acell F))) : Prop :=
  [/\ all (fun q => (piece_int q < 2 ^ (K * pc_words q))%N) message,
      [seq [seq cell_value T place (ac_cell a) | a <- zs] | zs <- zss]
        = [seq [seq (piece_int q %/ 2 ^ (K * j))%N%:R | j <- iota 0 (pc_words q)] | q <- message] &
      forall A, hash_to_point_spec (nth (0, 0) gens) Q (message_words message) = Some A -> point_in T place P (Some A)].
(* the prover knows the integer in a piece's cell *)
Definition piece_known (q : piece F) : Prop := ac_value (pc_cell q) = known (cell_value T place (ac_cell (pc_cell q))).
(* the constraints of the chip on one row; its lookup inputs are a word and its generator *)
Definition row_passes (row : int) : Prop := all (fun g => at_row T row g == 0) (sins_gates F c) /\
  exists2 w, (w < 2 ^ K)%N & [seq at_row T row e | e <- sins_lookup K gens c] = [:: w%:R; (nth (0, 0) gens w).1; (nth (0, 0) gens w).2].
(* the chip's selectors are on only where these regions turned them on, or where its constraints hold anyway *)
Definition sins_on_here (regions : seq (nat * seq (rop F))) : Prop :=
  forall s row, s \in [:: q_s1 c; q_s4 c] -> t_selector T s row -> turned_on place regions s row \/ row_passes row.
(* every generator is somewhere in the table *)
Definition all_generators (usable : int -> Prop) : Prop := forall w, (w < 2 ^ K)%N -> exists2 row, usable row &
  [seq t_cell T Fixed col row | col <- sins_columns c] = [:: w%:R; (nth (0, 0) gens w).1; (nth (0, 0) gens w).2].
End Chip.
