(* C24: the permutation polynomials encode the copy mapping with distinct labels. *)
Set Warnings "-notation-overridden,-ambiguous-paths".
From mathcomp Require Import all_ssreflect all_algebra.
From Verif Require Import Util M_Poly L_Poly M_Domain L_Domain P_Domain M_Assigned M_Env M_Transcript M_Commit
  S_Commit L_Commit P_Commit M_Circuit M_Selectors M_Copy P_Copy M_Permutation L_Sigma Ex_Field Ex_Env.
Import GRing.Theory.
Set Implicit Arguments.
Unset Strict Implicit.
Local Open Scope ring_scope.

(* The label of a cell (column, row). *)
Definition label (F : fieldType) (delta omega : F) (c : cell) : F :=
  delta ^+ c.1 * omega ^+ c.2.

(* delta has odd order T in every deployed field: it generates the subgroup of order
   (p - 1) / 2^S.  As long as there are at most T columns the labels are distinct. *)
Theorem C24_labels_distinct :
  forall (F : fieldType) (delta omega : F) (T k : nat), odd T ->
  T.-primitive_root delta -> (2 ^ k).-primitive_root omega ->
  forall c d : cell, (c.1 < T)%N -> (d.1 < T)%N -> (c.2 < 2 ^ k)%N -> (d.2 < 2 ^ k)%N ->
  label delta omega c = label delta omega d -> c = d.
Proof.
move=> F delta omega T k oT hd hw [i j] [i' j'] /= hi hi' hj hj'.
rewrite /label /= ![delta ^+ _ * _]mulrC => e.
by have [-> ->] := label_inj oT hd hw hi hi' hj hj' e.
Qed.
Print Assumptions C24_labels_distinct.

Section Keygen.
Variables (F B : fieldType) (G : lmodType F) (E : env B G) (ps : params G).
Hypotheses (ok : env_ok E) (pok : params_ok E ps).
Variables (j : nat) (d : domain F).
Hypothesis hd : domain_new (e_rou E) (e_zeta E) (e_S E) j (p_k ps) = Some d.
Variables (columns : seq column) (calls : seq copy_call).
Notation m := (size columns).
Notation n := (2 ^ p_k ps)%N.
Notation mapping := (a_mapping (run_copies (assembly_new n columns) calls).1).
Notation label := (label (e_delta E) (d_omega d)).

(* what the mapping says about a cell *)
Definition next (c : cell) : cell := odflt c (get2 mapping c).
Lemma nextE (i r : nat) : (i < m)%N -> (r < n)%N ->
  get2 mapping (i, r) = Some (next (i, r)) /\ ((next (i, r)).1 < m)%N && ((next (i, r)).2 < n)%N.
Proof.
move=> hi hr; have [_ [h _]] := C23_copies columns n calls.
have [|c e v] := h (i, r); first by rewrite /= hi hr.
by rewrite /next e.
Qed.

Lemma polysE : exists2 sigma, permutation_polys (e_delta E) (d_omega d) mapping m (p_n ps) = Some sigma &
  size sigma = m /\ (forall i, (i < m)%N -> size (nth [::] sigma i) = n) /\
  forall i r, (i < m)%N -> (r < n)%N -> nth 0 (nth [::] sigma i) r = label (next (i, r)).
Proof.
rewrite (ps_n pok) (permutation_polysE _ _ (next := fun i r => next (i, r))); last exact: nextE.
eexists; first by []; rewrite size_map size_iota; split=> //.
have e i : (i < m)%N -> nth [::] [seq [seq d_omega d ^+ (next (i, j)).2 * e_delta E ^+ (next (i, j)).1
   | j <- iota 0 n] | i <- iota 0 m] i = [seq d_omega d ^+ (next (i, j)).2 * e_delta E ^+ (next (i, j)).1 | j <- iota 0 n].
  by move=> hi; rewrite (nth_map 0%N) ?size_iota // nth_iota.
split=> [i hi|i r hi hr]; rewrite e //; first by rewrite size_map size_iota.
by rewrite (nth_map 0%N) ?size_iota // nth_iota // add0n mulrC.
Qed.

(* The proving key: the i-th sigma column maps row r to the label of the cell that (i, r) is
   mapped to; the coefficient form interpolates it, and the coset form evaluates that. *)
Theorem C24_build_pk : exists sigma polys cosets,
  perm_build_pk E ps d mapping m = Some (sigma, polys, cosets) /\
  [/\ size sigma = m, size polys = m, size cosets = m &
  forall i, (i < m)%N ->
    [/\ size (nth [::] sigma i) = n, size (nth [::] polys i) = n,
        forall r, (r < n)%N -> exists2 c, get2 mapping (i, r) = Some c &
          nth 0 (nth [::] sigma i) r = label c /\
          eval_polynomial (nth [::] polys i) (d_omega d ^+ r) = label c &
        nth [::] cosets i = mkseq (fun r => (Poly (nth [::] polys i)).[e_zeta E * d_ext_omega d ^+ r])
                                  (2 ^ d_ek d)]].
Proof.
have [sigma e [ss [sr hs]]] := polysE; have fc : field_constants (e_rou E) (e_zeta E) (e_S E).
  by have [] := ok_zeta ok; split; [exact: ok_rou|split].
have tp := ok_threads ok.
pose l2c a := odflt [::] (lagrange_to_coeff (e_threads E) d a).
pose c2e a := odflt [::] (coeff_to_extended (e_threads E) d a).
have hl a : a \in sigma -> size a = n /\ lagrange_to_coeff (e_threads E) d a = Some (l2c a) /\ size (l2c a) = n.
  move=> /(nthP [::]) [i hi <-]; rewrite ss in hi; have sa := sr i hi.
  by rewrite /l2c; have [c -> [sc _]] := C03_lagrange_to_coeff fc tp hd sa.
have hc a : a \in sigma -> coeff_to_extended (e_threads E) d (l2c a) = Some (c2e (l2c a)).
  by move=> /hl [_ [_ sa]]; rewrite /c2e (C04_coeff_to_extended fc tp hd sa).
exists sigma, (map l2c sigma), (map c2e (map l2c sigma)); split.
  rewrite /perm_build_pk e /= (sequence_map (g := l2c)) /=; last by move=> a /hl [_ [-> _]].
  by rewrite (sequence_map (g := c2e)) //= => b /mapP [a ha ->]; rewrite hc.
rewrite !size_map ss; split=> // i hi.
rewrite !(nth_map [::]) ?size_map ?ss //.
have [sa [el sl]] : size (nth [::] sigma i) = n /\ lagrange_to_coeff (e_threads E) d (nth [::] sigma i) =
   Some (l2c (nth [::] sigma i)) /\ size (l2c (nth [::] sigma i)) = n by apply: hl; rewrite mem_nth ?ss.
split=> //; last by rewrite /c2e (C04_coeff_to_extended fc tp hd sl).
move=> r hr; exists (next (i, r)); first by have [] := nextE hi hr.
split; first exact: hs.
by have := C03_lagrange_to_coeff fc tp hd sa; rewrite el => -[c [<-] [_ [he _]]]; rewrite he //; exact: hs.
Qed.

(* The verifying key holds the commitments to the same polynomials, blinded by 1. *)
Theorem C24_build_vk : exists sigma polys cosets commitments,
  perm_build_pk E ps d mapping m = Some (sigma, polys, cosets) /\
  perm_build_vk E ps d mapping m = Some commitments /\
  size commitments = m /\
  forall i, (i < m)%N -> commit E ps (nth [::] polys i) 1 = Some (nth 0 commitments i).
Proof.
have [sigma [polys [cosets [e [s1 s2 s3 h]]]]] := C24_build_pk.
move: (e); rewrite /perm_build_pk /perm_build_vk.
case: permutation_polys => [sg|] //=; case e1: (sequence _) => [pl|] //=.
case e2: (sequence _) => [cst|] //= [es ep ec]; subst sg pl cst.
pose cm a := odflt 0 (commit_lagrange E ps a 1).
have hcm a : a \in sigma -> commit_lagrange E ps a 1 = Some (cm a).
  move=> /(nthP [::]) [i hi <-]; rewrite s1 in hi; have [sa _ _ _] := h i hi.
  by rewrite /cm commit_lagrangeE // (ps_gl pok).
exists sigma, polys, cosets, (map cm sigma); rewrite size_map s1; split=> //.
split; first by rewrite (sequence_map (g := cm)).
split=> // i hi; rewrite (nth_map [::]) ?s1 //.
have [_ hq] := sequence_map_inv e1; have := hq [::] [::] i; rewrite s1 => /(_ hi) hq'.
have [<- _] := C11_commit_lagrange_agrees ok pok 1 (ok_threads ok) hd hq'.
by apply: hcm; rewrite mem_nth ?s1.
Qed.
End Keygen.
Print Assumptions C24_build_pk.
Print Assumptions C24_build_vk.

(* three columns of four rows over F_97, where delta = 35 has order 3 *)
Example C24_example_delta : odd 3 /\ 3.-primitive_root (e_delta E97).
Proof.
split=> //; have [m hm dm] := @prim_order_exists _ 3 (e_delta E97) isT ltac:(by apply/eqP; vm_compute).
have ne : (e_delta E97 == 1) = false by vm_compute.
have /primeP [_ /(_ m dm)] : prime 3 by [].
move=> /orP [] /eqP e; subst m; last exact hm.
by have := prim_expr_order hm; rewrite expr1 => /eqP; rewrite ne.
Qed.
Example C24_example :
  let cols := [:: (Advice, 0%N); (Advice, 1%N); (Fixed, 0%N)] in
  let calls := [:: CopyCall (Advice, 0%N) 0 (Advice, 1%N) 2; CopyCall (Advice, 1%N) 2 (Fixed, 0%N) 3] in
  if params_new E97 2 is Some ps then
  if domain_new (e_rou E97) (e_zeta E97) (e_S E97) 3 2 is Some d then
    (* (0,0) -> (1,2), (1,2) -> (2,3), (2,3) -> (0,0), (0,1) -> itself *)
    if perm_build_pk E97 ps d (a_mapping (run_copies (assembly_new 4 cols) calls).1) 3 is Some (s, _, _) then
      (nth 0 (nth [::] s 0) 0 == label (e_delta E97) (d_omega d) (1%N, 2%N)) &&
      (nth 0 (nth [::] s 1) 2 == label (e_delta E97) (d_omega d) (2%N, 3%N)) &&
      (nth 0 (nth [::] s 2) 3 == label (e_delta E97) (d_omega d) (0%N, 0%N)) &&
      (nth 0 (nth [::] s 0) 1 == label (e_delta E97) (d_omega d) (0%N, 1%N))
    else false else false else false.
Proof. by vm_compute. Qed.
