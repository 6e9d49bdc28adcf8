(* Specification of Merkle path validity with MerkleCRH (Zcash protocol specification, sections 4.9 and
   5.4.1.3): the hash of two children at level l is the Sinsemilla hash of
   l (K bits) || left (n bits) || right (n bits), all little-endian. *)
Set Warnings "-notation-overridden,-ambiguous-paths".
From mathcomp Require Import all_ssreflect all_algebra.
From Verif Require Import Util M_Env M_Circuit S_Circuit M_Value M_Region S_Region M_Layout M_Utilities M_Ecc S_Curve M_EccMul
  P_RangeCheck M_Sinsemilla S_Sinsemilla M_Merkle S_Layout.
Import GRing.Theory.
Set Implicit Arguments.
Unset Strict Implicit.
Local Open Scope ring_scope.

Section Merkle.
Variables (F : fieldType) (S : nat -> F * F) (Q : F * F) (K n : nat).
(* the x-coordinate of the hash of three integers written with K, n and n bits *)
Definition crh (l u v : nat) : option F :=
  omap fst (hash_to_point_spec S Q (words_of K ((K + n + n) %/ K) (l + 2 ^ K * u + 2 ^ (K + n) * v))%N).
(* an n-bit integer that represents x; as in the protocol, it need not be the smallest *)
Definition encodes (x : F) (u : nat) : Prop := (u < 2 ^ n)%N /\ u%:R = x.
(* h is the parent of x and y, unless the hash is undefined *)
Definition parent (l : nat) (x y h : F) : Prop :=
  exists u v, [/\ encodes x u, encodes y v & forall d, crh l u v = Some d -> h = d].
(* root is the node reached from [node] at level l by a path: at each level, whether the node is the right
   child, and its sibling *)
Fixpoint path_valid (l : nat) (node : F) (path : seq (bool * F)) (root : F) : Prop :=
  if path is (is_right, sibling) :: path' then
    exists2 node', (if is_right then parent l sibling node node' else parent l node sibling node') &
      path_valid l.+1 node' path' root
  else root = node.
(* the parent of two nodes written as these integers; None if the hash is undefined or has a zero coordinate
   (no point of Pallas has) *)
Definition parent_of (l u v : nat) : option F :=
  obind (fun A : F * F => if (A.1 != 0) && (A.2 != 0) then Some A.1 else None)
    (hash_to_point_spec S Q (words_of K ((K + n + n) %/ K) (l + 2 ^ K * u + 2 ^ (K + n) * v))%N).
(* the root, with nodes represented by the integers [val x] *)
Fixpoint merkle_root (val : F -> nat) (l : nat) (node : F) (path : seq (bool * F)) : option F :=
  if path is (is_right, sibling) :: path' then
    obind (fun node' => merkle_root val l.+1 node' path')
      (if is_right then parent_of l (val sibling) (val node) else parent_of l (val node) (val sibling))
  else Some node.
End Merkle.

(* the chip's selectors *)
Definition merkle_sels (c : merkle_config) : seq nat :=
  [:: q_s1 (mc_sins c); q_s4 (mc_sins c); q_decompose c; q_swap (mc_swap c);
      q_lookup (mc_lookup c); q_running (mc_lookup c); q_bitshift (mc_lookup c)].
(* Several chips: a selector has one role, and the chips that use it agree on the configuration of that role
   (in Orchard the two Merkle chips share the range check and nothing else). *)
Definition shares (i : nat) (c c' : merkle_config) : Prop :=
  match i with
  | 0 | 1 => mc_sins c = mc_sins c'
  | 2 => c = c'
  | 3 => mc_swap c = mc_swap c'
  | _ => mc_lookup c = mc_lookup c'
  end%N.
Definition separate (chips : seq merkle_config) : Prop :=
  forall c c', List.In c chips -> List.In c' chips -> forall i j, (i < 7)%N -> (j < 7)%N ->
    nth 0%N (merkle_sels c) i = nth 0%N (merkle_sels c') j -> i = j /\ shares i c c'.

(* The constraints of one Merkle chip hold in a table. *)
Section Chip.
Variables (F : fieldType) (K : nat) (gens : seq (F * F)) (s w : nat) (T : table F) (usable : int -> Prop).
Record merkle_holds (c : merkle_config) : Prop := MerkleHolds {
  mh_sins : gates_hold T (sins_gates F (mc_sins c));
  mh_lookup : looked_up T usable (sins_lookup K gens (mc_sins c)) (sins_columns (mc_sins c));
  mh_table : generator_table K gens T (mc_sins c) usable;
  mh_short : gates_hold T [:: lrc_gate F (mc_lookup c) K];
  mh_range : looked_up T usable [:: lrc_lookup F (mc_lookup c) K] [:: table_idx (mc_lookup c)];
  mh_words : forall row, usable row -> word K (t_cell T Fixed (table_idx (mc_lookup c)) row);
  mh_swap : gates_hold T (swap_gates F (mc_swap c));
  mh_decompose : gates_hold T (decompose_gate F K s w c);
  (* the rows that look something up are usable *)
  mh_rows : forall row, t_selector T (q_s1 (mc_sins c)) row || t_selector T (q_lookup (mc_lookup c)) row -> usable row;
  (* short range checks do not share rows with running sums *)
  mh_apart : forall row, t_selector T (q_bitshift (mc_lookup c)) row ->
    t_selector T (q_running (mc_lookup c)) row = false /\ t_selector T (q_running (mc_lookup c)) (row - 1) = false }.
(* the constraints of a chip at one row; the lookups are met if the tables are loaded *)
Definition merkle_row_passes (c : merkle_config) (row : int) : Prop :=
  [/\ row_passes K gens T (mc_sins c) row,
      all (fun g => at_row T row g == 0) (lrc_gate F (mc_lookup c) K :: swap_gates F (mc_swap c) ++ decompose_gate F K s w c) &
      word K (at_row T row (lrc_lookup F (mc_lookup c) K))].
(* the selectors of the chips are on only where these regions turned them on, or where the constraints hold anyway *)
Definition merkle_on_here (place : nat -> int) (chips : seq merkle_config) (regions : seq (nat * seq (rop F))) : Prop :=
  forall c, List.In c chips -> forall q row, q \in merkle_sels c -> t_selector T q row ->
    turned_on place regions q row \/ merkle_row_passes c row.
End Chip.
