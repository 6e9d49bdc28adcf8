(* Model of halo2_proofs/src/plonk/circuit/compress_selectors.rs (process) and of
   ConstraintSystem::compress_selectors (circuit.rs:1230-1343).  Panics (failed assertions,
   indices out of range, usize underflow, operators refusing simple selectors) are [None]. *)
Set Warnings "-notation-overridden,-ambiguous-paths".
From mathcomp Require Import all_ssreflect all_algebra.
From Verif Require Import Util M_Assigned M_Circuit.
Import GRing.Theory.
Set Implicit Arguments.
Unset Strict Implicit.
Local Open Scope ring_scope.

(* v[i] *)
Definition get {T : Type} (s : seq T) (i : nat) : option T := ohead (drop i s).

Section Sel.
Variable F : fieldType.

(* compress_selectors.rs:6-18 SelectorDescription *)
Record sdesc := SDesc { sd_sel : nat; sd_act : seq bool; sd_deg : nat }.
(* compress_selectors.rs:23-32 SelectorAssignment *)
Record sassign := SAssign { sa_sel : nat; sa_comb : nat; sa_expr : expr F }.

Section Process.
Variable S : Type.                         (* state of the allocating closure *)
Variable alloc : S -> S * expr F.          (* allocate_fixed_column *)
Variable max_degree : nat.

(* combination_assignments and selector_assignments, with the closure's state *)
Record pst := PSt { p_s : S; p_combs : seq (seq F); p_assigns : seq sassign }.

(* compress_selectors.rs:73-96 the closure given to retain *)
Definition retain_step (st : pst) (s : sdesc) : pst :=
  if sd_deg s == 0%N then
    let: (s', expression) := alloc (p_s st) in
    {| p_s := s';
       p_combs := rcons (p_combs st) [seq if b then 1 else 0 : F | b <- sd_act s];
       p_assigns := rcons (p_assigns st)
         {| sa_sel := sd_sel s; sa_comb := size (p_combs st); sa_expr := expression |} |}
  else st.

(* compress_selectors.rs:103-124 the exclusion matrix (lower triangular) *)
Definition exclusion_matrix (sels : seq sdesc) : seq (seq bool) :=
  mapi (fun i s => [seq has (fun lr : bool * bool => lr.1 && lr.2) (zip (sd_act s) (sd_act o))
                   | o <- take i sels]) sels.

(* compress_selectors.rs:158-162: is j excluded by one of the combination's members? *)
Fixpoint excluded (m : seq (seq bool)) (j : nat) (cadded : seq nat) : option bool :=
  if cadded is i :: cadded' then
    obind (fun row => obind (fun b => if b then Some true else excluded m j cadded') (get row i))
      (get m j)
  else Some false.

(* compress_selectors.rs:143-177 try_selectors: the selectors after i, with their indices *)
Fixpoint try_selectors (m : seq (seq bool)) (rest : seq (nat * sdesc)) (d : nat)
    (comb : seq sdesc) (cadded : seq nat) (added : seq bool) : option (seq sdesc * seq bool) :=
  if rest is (j, s) :: rest' then
    if (d + size comb == max_degree)%N then Some (comb, added) else
    obind (fun a : bool =>
      if a then try_selectors m rest' d comb cadded added else
      obind (fun ex : bool =>
        if ex then try_selectors m rest' d comb cadded added else
        if (sd_deg s == 0)%N then None else                     (* usize underflow *)
        let new_d := maxn d (sd_deg s - 1) in
        if (max_degree < new_d + size comb + 1)%N then try_selectors m rest' d comb cadded added
        else try_selectors m rest' new_d (rcons comb s) (rcons cadded j)
               (set_nth false added j true))
      (excluded m j cadded))
    (get added j)
  else Some (comb, added).

(* compress_selectors.rs:194-201 the expression substituted for one member *)
Fixpoint member_expr (n : nat) (root assigned_root : F) (query expression : expr F)
    : option (expr F) :=
  if n is n'.+1 then
    obind (member_expr n' (root + 1) assigned_root query)
      (if root != assigned_root then
         obind (e_mul expression) (e_sub (EConstant root) query)
       else Some expression)
  else Some expression.

(* compress_selectors.rs:204-213 combination_assignment := assigned_root where active *)
Fixpoint set_active (root : F) (ca : seq F) (act : seq bool) : seq F :=
  match ca, act with
  | c :: ca', a :: act' => (if a then root else c) :: set_active root ca' act'
  | _, _ => ca
  end.

(* compress_selectors.rs:185-222 one SelectorAssignment per member *)
Fixpoint assign_members (combination_len comb_index : nat) (query : expr F) (comb : seq sdesc)
    (assigned_root : F) (ca : seq F) : option (seq F * seq sassign) :=
  if comb is s :: comb' then
    obind (fun expression =>
      omap (fun r : seq F * seq sassign =>
        (r.1, {| sa_sel := sd_sel s; sa_comb := comb_index; sa_expr := expression |} :: r.2))
      (assign_members combination_len comb_index query comb' (assigned_root + 1)
         (set_active assigned_root ca (sd_act s))))
    (member_expr combination_len 1 assigned_root query query)
  else Some (ca, [::]).

(* compress_selectors.rs:129-224 the greedy loop *)
Fixpoint greedy (n : nat) (m : seq (seq bool)) (sels : seq (nat * sdesc)) (added : seq bool)
    (st : pst) : option pst :=
  if sels is (i, s) :: rest then
    obind (fun a : bool =>
      if a then greedy n m rest added st else
      if ~~ (sd_deg s <= max_degree)%N then None else           (* assert *)
      if (sd_deg s == 0)%N then None else                       (* usize underflow *)
      obind (fun r : seq sdesc * seq bool =>
        let: (s', query) := alloc (p_s st) in
        obind (fun ca : seq F * seq sassign =>
          greedy n m rest r.2
            {| p_s := s'; p_combs := rcons (p_combs st) ca.1;
               p_assigns := p_assigns st ++ ca.2 |})
        (assign_members (size r.1) (size (p_combs st)) query r.1 1 (nseq n 0)))
      (try_selectors m rest (sd_deg s - 1) [:: s] [:: i] (set_nth false added i true)))
    (get added i)
  else Some st.

(* compress_selectors.rs:51-227 process *)
Definition process (selectors : seq sdesc) (s0 : S) : option pst :=
  if selectors is s :: _ then
    let n := size (sd_act s) in
    if all (fun a => size (sd_act a) == n) selectors then
      let st := foldl retain_step {| p_s := s0; p_combs := [::]; p_assigns := [::] |} selectors in
      let selectors := [seq s <- selectors | sd_deg s != 0%N] in
      greedy n (exclusion_matrix selectors) (zip (iota 0 (size selectors)) selectors)
        (nseq (size selectors) false) st
    else None
  else Some {| p_s := s0; p_combs := [::]; p_assigns := [::] |}.
End Process.

(* circuit.rs:1272-1281 the allocating closure: its state is the constraint system and
   new_columns *)
Definition alloc_fixed (st : cs F * seq nat) : (cs F * seq nat) * expr F :=
  let mc := fixed_column st.1 in
  let mi := query_fixed_index mc.1 mc.2 in
  ((mi.1, rcons st.2 mc.2), EFixed F mi.2 mc.2 0).

(* circuit.rs:1246-1251 the maximal degree of every selector *)
Definition selector_degrees (num : nat) (polys : seq (expr F)) : option (seq nat) :=
  foldl (fun acc e =>
    obind (fun degrees => obind (fun os : option nat =>
      if os is Some s then
        if (s < size degrees)%N then
          Some (set_nth 0%N degrees s (maxn (nth 0%N degrees s) (degree e)))
        else None
      else Some degrees) (extract_simple_selector e)) acc)
    (Some (nseq num 0%N)) polys.

(* circuit.rs:1283-1288: v[selector] := Some(..) for every assignment *)
Definition fill {T : Type} (n : nat) (kvs : seq (nat * option T)) : option (seq (option T)) :=
  foldl (fun acc (kv : nat * option T) =>
    obind (fun v => if (kv.1 < size v)%N then
                      obind (fun x => Some (set_nth None v kv.1 (Some x))) kv.2
                    else None) acc)
    (Some (nseq n None)) kvs.

(* circuit.rs:1299-1324 replace_selectors *)
Definition replace_selectors (repl : seq (expr F)) (must_be_nonsimple : bool) (e : expr F)
    : option (expr F) :=
  expr_eval (fun c => Some (EConstant c))
    (fun i simple => if must_be_nonsimple && simple then None else get repl i)
    (fun i c r => Some (EFixed F i c r)) (fun i c r => Some (EAdvice F i c r))
    (fun i c r => Some (EInstance F i c r))
    (omap (@e_neg F))
    (fun a b => obind (fun a => obind (e_add a) b) a)
    (fun a b => obind (fun a => obind (e_mul a) b) a)
    (fun a f => omap (fun a => e_scale a f) a) e.

(* circuit.rs:1230-1343 ConstraintSystem::compress_selectors *)
Definition compress_selectors (m : cs F) (selectors : seq (seq bool))
    : option (cs F * seq (seq F)) :=
  if size selectors == num_selectors m then
    obind (fun degrees => obind (fun max_degree => 
      obind (fun st : pst (cs F * seq nat) =>
        let: (m1, new_columns) := p_s st in
        let num := size (p_assigns st) in
        obind (fun repl => obind (fun smap =>
          obind (fun gs : seq (gate F) => obind (fun ls : seq (lookup F) =>
            Some (set_args m1 gs (permutation m1) ls (constants m1) (minimum_degree m1) smap,
                  p_combs st))
          (all_some [seq obind (fun i => omap (fun t => {| lk_input := i; lk_table := t |})
                       (all_some [seq replace_selectors repl true e | e <- lk_table l]))
                     (all_some [seq replace_selectors repl true e | e <- lk_input l])
                    | l <- lookups m1]))
          (all_some [seq omap (fun ps => {| g_polys := ps;
                         g_queried_selectors := g_queried_selectors g;
                         g_queried_cells := g_queried_cells g |})
                       (all_some [seq replace_selectors repl false e | e <- g_polys g])
                    | g <- gates m1]))
        (obind (fun v => all_some v)
           (fill num [seq (sa_sel a, get new_columns (sa_comb a)) | a <- p_assigns st])))
        (obind (fun v => all_some v)
           (fill num [seq (sa_sel a, Some (sa_expr a)) | a <- p_assigns st])))
      (process alloc_fixed max_degree
         (mapi (fun i (ad : seq bool * nat) =>
            {| sd_sel := i; sd_act := ad.1; sd_deg := ad.2 |}) (zip selectors degrees))
         (m, [::])))
    (cs_degree m))
    (selector_degrees (num_selectors m) (flatten [seq g_polys g | g <- gates m]))
  else None.
End Sel.
