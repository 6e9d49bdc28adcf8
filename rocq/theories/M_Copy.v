(* Model of halo2_proofs/src/plonk/permutation/keygen.rs:17-100: Assembly::new and
   Assembly::copy.  The vectors of vectors are sequences of sequences; an index out of range
   is a panic.  [copy] takes &mut self: it returns the assembly after the call together with
   the Result. *)
Set Warnings "-notation-overridden,-ambiguous-paths".
From mathcomp Require Import all_ssreflect all_algebra.
From Verif Require Import Util M_Env M_Circuit.
Set Implicit Arguments.
Unset Strict Implicit.

(* a cell is (index of the column in the permutation, row) *)
Definition cell := (nat * nat)%type.

(* v[i][j] (std): None = panic *)
Definition get2 {T : Type} (v : seq (seq T)) (c : cell) : option T :=
  if (c.1 < size v) then
    let r := nth [::] v c.1 in
    if (c.2 < size r) then (if drop c.2 r is x :: _ then Some x else None) else None
  else None.
(* v[i] = x on a vector: replace the element, keep the others *)
Definition upd {T : Type} (v : seq T) (i : nat) (x : T) : seq T := take i v ++ x :: drop i.+1 v.
(* v[i][j] = x: None = panic *)
Definition set2 {T : Type} (v : seq (seq T)) (c : cell) (x : T) : option (seq (seq T)) :=
  if (c.1 < size v) then
    let r := nth [::] v c.1 in
    if (c.2 < size r) then Some (upd v c.1 (upd r c.2 x)) else None
  else None.

(* keygen.rs:17-22 struct Assembly *)
Record assembly := Assembly {
  a_columns : seq column;
  a_mapping : seq (seq cell);
  a_aux : seq (seq cell);
  a_sizes : seq (seq nat) }.

(* keygen.rs:25-43 Assembly::new *)
Definition assembly_new (n : nat) (columns : seq column) : assembly :=
  let cols := [seq [seq (i, j) | j <- iota 0 n] | i <- iota 0 (size columns)] in
  {| a_columns := columns; a_mapping := cols; a_aux := cols;
     a_sizes := nseq (size columns) (nseq n 1) |}.

(* iter().position(|c| c == &x) *)
Definition position (s : seq column) (x : column) : option nat :=
  if x \in s then Some (index x s) else None.

(* keygen.rs:85-92: loop { aux[i] = left_cycle; i = mapping[i]; if i == right_cycle { break } }.
   [fuel] bounds the iterations; None = panic, or out of fuel (C23 shows that neither
   happens). *)
Fixpoint relabel (fuel : nat) (mapping aux : seq (seq cell)) (i left_cycle right_cycle : cell)
    : option (seq (seq cell)) :=
  if fuel is f.+1 then
    obind (fun aux =>
      obind (fun i => if i == right_cycle then Some aux
                      else relabel f mapping aux i left_cycle right_cycle)
            (get2 mapping i))
      (set2 aux i left_cycle)
  else None.

(* keygen.rs:45-100 Assembly::copy.  The pair is the assembly after the call and the Result;
   after a panic the assembly is the one before the call (it is not used again). *)
Definition copy (a : assembly) (left_column : column) (left_row : nat)
    (right_column : column) (right_row : nat) : assembly * res unit :=
  if position (a_columns a) left_column is Some lc then
  if position (a_columns a) right_column is Some rc then
    if ~~ ((lc < size (a_mapping a)) && (rc < size (a_mapping a))) then (a, Panic) else
    if (size (nth [::] (a_mapping a) lc) <= left_row)
       || (size (nth [::] (a_mapping a) rc) <= right_row) then (a, Err EBoundsFailure) else
    let l := (lc, left_row) in let r := (rc, right_row) in
    let result :=
      obind (fun left_cycle => obind (fun right_cycle =>
      if left_cycle == right_cycle then Some a else
      obind (fun sl => obind (fun sr =>
      let: (left_cycle, right_cycle) :=
        if (sl < sr) then (right_cycle, left_cycle) else (left_cycle, right_cycle) in
      obind (fun sl => obind (fun sr =>
      obind (fun sizes =>
      obind (fun aux =>
      obind (fun tmp => obind (fun mr =>
      obind (fun mapping =>
      omap (fun mapping =>
        {| a_columns := a_columns a; a_mapping := mapping; a_aux := aux; a_sizes := sizes |})
      (set2 mapping r tmp))
      (set2 (a_mapping a) l mr))
      (get2 (a_mapping a) r)) (get2 (a_mapping a) l))
      (relabel (size (flatten (a_mapping a))) (a_mapping a) (a_aux a)
               right_cycle left_cycle right_cycle))
      (set2 (a_sizes a) left_cycle (sl + sr)))
      (get2 (a_sizes a) right_cycle)) (get2 (a_sizes a) left_cycle))
      (get2 (a_sizes a) right_cycle)) (get2 (a_sizes a) left_cycle))
      (get2 (a_aux a) r)) (get2 (a_aux a) l) in
    if result is Some a' then (a', Ok tt) else (a, Panic)
  else (a, Err EColumnNotInPermutation)
  else (a, Err EColumnNotInPermutation).

(* a sequence of copy calls, whatever each of them returns *)
Record copy_call := CopyCall { cc_lc : column; cc_lr : nat; cc_rc : column; cc_rr : nat }.
Definition do_copy (a : assembly) (c : copy_call) : assembly * res unit :=
  copy a (cc_lc c) (cc_lr c) (cc_rc c) (cc_rr c).
Fixpoint run_copies (a : assembly) (calls : seq copy_call) : assembly * seq (res unit) :=
  if calls is c :: calls' then
    let: (a1, r) := do_copy a c in
    let: (a2, rs) := run_copies a1 calls' in (a2, r :: rs)
  else (a, [::]).
