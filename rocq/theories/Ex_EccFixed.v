(* A case of C57 and C58: the 181 points of y^2 = x^3 + 3 over F_163, a base of order 181, and 4 windows of 2 bits. *)
Set Warnings "-notation-overridden,-ambiguous-paths".
From Coq Require Import NArith Nnat Lia.
From mathcomp Require Import all_ssreflect all_algebra.
From Verif Require Import FieldTac Util M_Env M_Assigned P_Assigned M_Circuit S_Circuit M_Selectors M_Value M_Region S_Region
  M_Layout S_Layout M_Utilities L_Region L_Gadget M_Ecc S_Curve P_Ecc P_Bits S_Digits M_EccFixed
  Ex_Field163 Ex_Field181 Ex_Layout P_EccMul P_EccFixed P_EccFixedComplete.
Import GRing.Theory.
Set Implicit Arguments.
Unset Strict Implicit.
Local Open Scope ring_scope.

(* the table that holds what these regions wrote *)
Definition honest_table (F : fieldType) (place : nat -> int) (rs : seq (nat * seq (rop F))) : table F :=
  let w := flatten [seq pmap (fun o : rop F => if writes o is Some (k, c, off, y) then Some (k, c, place rc.1 + off%:Z, y) else None) rc.2 | rc <- rs] in
  let ons := flatten [seq pmap (fun o : rop F => if o is OEnable s off then Some (s, place rc.1 + off%:Z) else None) rc.2 | rc <- rs] in
  Table (fun k col row => if [seq t.2 | t <- rev w & (t.1.1.1 == k) && (t.1.1.2 == col) && (t.1.2 == row)] is y :: _ then y else 0)
        (fun s row => (s, row) \in ons).
Definition F163 := K163_fieldType.
Definition F181 := K181_fieldType.
Definition pf163 : prime_field F163 := PrimeField (fun x : F163 => k_nat_163 x) 8 8.
Definition pf181 : prime_field F181 := PrimeField (fun x : F181 => k_nat_181 x) 8 8.
Lemma k_natr_small_163 r : (r < 163)%N -> k_nat_163 (r%:R : K163) = r.
Proof. by move=> h; rewrite /k_nat_163 kval_nat_163 N.mod_small ?Nat2N.id //; move/ltP: h => h; lia. Qed.
Lemma k_natr_small_181 r : (r < 181)%N -> k_nat_181 (r%:R : K181) = r.
Proof. by move=> h; rewrite /k_nat_181 kval_nat_181 N.mod_small ?Nat2N.id //; move/ltP: h => h; lia. Qed.
Lemma pf163_ok : prime_field_ok pf163 163.
Proof.
split=> [|x|x|n||]; [by vm_compute|exact: k_nat_lt_163|exact: k_natrK_163| |by vm_compute|by vm_compute].
have e : (163%:R = 0 :> K163)%R by apply/eqP; vm_compute.
rewrite {1}(divn_eq n 163) natrD natrM e mulr0 add0r; apply: k_natr_small_163.
by rewrite ltn_pmod.
Qed.
Lemma pf181_ok : prime_field_ok pf181 181.
Proof.
split=> [|x|x|n||]; [by vm_compute|exact: k_nat_lt_181|exact: k_natrK_181| |by vm_compute|by vm_compute].
have e : (181%:R = 0 :> K181)%R by apply/eqP; vm_compute.
rewrite {1}(divn_eq n 181) natrD natrM e mulr0 add0r; apply: k_natr_small_181.
by rewrite ltn_pmod.
Qed.
Lemma every163 (f : pred K163) : all (fun i => f (kred_163 (N.of_nat i))) (iota 0 163) -> forall x, f x.
Proof.
move=> /allP h x; have := h (k_nat_163 x); rewrite k_natK_163; apply; rewrite mem_iota add0n /k_nat_163.
have := K163_lt x => /N.ltb_lt; set n := kval_163 x; clearbody n => hn.
by apply/ltP; lia.
Qed.
Definition b163 : F163 := 3%:R.
Example good163 : good_curve b163.
Proof.
split; first by vm_compute.
  by apply: (@every163 (fun y : F163 => y ^+ 2 != b163)); vm_compute.
by apply: (@every163 (fun x : F163 => x ^+ 3 + b163 != 0)); vm_compute.
Qed.
Definition B163 : F163 * F163 := (15%:R, 66%:R).
Definition ns (s : seq nat) : seq F163 := [seq x%:R | x <- s].
(* the coefficients that compute_lagrange_coeffs gives *)
Definition lagrange163 : seq (seq F163) := odflt [::] (compute_lagrange_coeffs pf181 2 4 (Some B163)).
Definition base_with (l : seq (seq F163)) : fixed_point F163 := FixedPoint (Some B163)
  [:: ns [:: 73; 37; 1; 4]%N; ns [:: 31; 75; 2; 63]%N; ns [:: 2; 20; 15; 58]%N; ns [:: 80; 67; 49; 30]%N]
  [:: 70; 60; 8; 2]%N l.
Definition base163 : fixed_point F163 := base_with lagrange163.
Lemma odfltK (A : Type) (o : option (seq A)) : (if o is Some _ then true else false) -> o = Some (odflt [::] o).
Proof. by case: o. Qed.
Example fits163 : windows_fit 181 2 4. Proof. by split; vm_compute. Qed.
Lemma z163 : all (fun w => all (fun k => if nth None (nth [::] (odflt [::] (compute_window_table pf181 2 4 (Some B163))) w) k is Some (x, y) then
    all (fun i => (kred_163 (N.of_nat i)) ^+ 2 != (nth 0%N [:: 70; 60; 8; 2]%N w)%:R - y) (iota 0 163) else true) (iota 0 4)) (iota 0 4).
Proof. by vm_compute. Qed.
Lemma lagrange163E : if compute_lagrange_coeffs pf181 2 4 (Some B163) is Some _ then true else false. Proof. by vm_compute. Qed.
Lemma base_with_ok l : compute_lagrange_coeffs pf181 2 4 (Some B163) = Some l -> fixed_base_ok b163 pf181 181 2 4 B163 (base_with l).
Proof.
move=> hl; split.
- by [].
- by vm_compute.
- by apply/eqP; vm_compute.
- exact: hl.
- move=> tbl w k x y u et hw hk e; have := z163; rewrite et [odflt _ _]/=.
  move=> /allP/(_ w); rewrite mem_iota add0n => /(_ hw) /allP/(_ k); rewrite mem_iota add0n => /(_ hk).
  by rewrite e => /(@every163 (fun u : F163 => u ^+ 2 != _)).
Qed.
Example base163_ok : fixed_base_ok b163 pf181 181 2 4 B163 base163.
Proof. exact (base_with_ok (@odfltK _ (compute_lagrange_coeffs pf181 2 4 (Some B163)) lagrange163E)). Qed.

Definition us163 : seq (seq F163) := [:: ns [:: 73; 37; 1; 4]%N; ns [:: 31; 75; 2; 63]%N; ns [:: 2; 20; 15; 58]%N; ns [:: 80; 67; 49; 30]%N].
Lemma u163 : all (fun w => all (fun k => if nth None (nth [::] (odflt [::] (compute_window_table pf181 2 4 (Some B163))) w) k is Some (x, y) then
    (nth 0 (nth [::] us163 w) k) ^+ 2 == y + (nth 0%N [:: 70; 60; 8; 2]%N w)%:R else true) (iota 0 4)) (iota 0 4).
Proof. by vm_compute. Qed.
Lemma base_with_us l : fixed_base_us pf181 2 4 B163 (base_with l).
Proof.
split=> // tbl w k x y et hw hk e; have := u163; rewrite et [odflt _ _]/=.
move=> /allP/(_ w); rewrite mem_iota add0n => /(_ hw) /allP/(_ k); rewrite mem_iota add0n => /(_ hk).
by rewrite e => /eqP.
Qed.
Example base163_us : fixed_base_us pf181 2 4 B163 base163.
Proof. exact (base_with_us lagrange163). Qed.

(* The honest prover's run: its table meets every constraint and gate, and holds [s] B. *)
Definition incc163 := IncConfig 1 0 1 2 3.
Definition addc163 := AddConfig 2 4 0 1 2 3 5 6 7 8.
Definition fixc163 := FullConfig 0 (FixedConfig [:: 1; 2; 3; 4]%N 0 9 10 addc163 incc163).
Definition inst163 (_ _ : nat) : value F163 := unknown.
Definition place163 (r : nat) : int := Posz (10 * r).
Definition prog163 (s : nat) := mul_fixed_full pf163 pf181 181 2 4 fixc163 (known (s%:R : F181)) base163.
Definition regions163 (s : nat) : seq (nat * seq (rop F163)) := lregions inst163 0 (prog163 s).
Definition table163 (s : nat) : table F163 := honest_table place163 (regions163 s).
Definition run163 (s : nat) : bool :=
  let T := table163 s in
  [&& honestb place163 T (regions163 s), all (fun rc => all (respects_opb T place163 rc.1) rc.2) (regions163 s),
      all (fun row => all (fun g => at_row T (Posz row) g == 0)
        (full_gates b163 2 fixc163 ++ inc_gates F163 incc163 ++ add_gates F163 addc163)) (iota 0 20) &
      if lreturns inst163 0 (prog163 s) is Ok ((res, ws), _) then
        ((cell_value T place163 (ec_cell (ep_x res)), cell_value T place163 (ec_cell (ep_y res))) == encode (pmul s (Some B163)))
        && (size ws == 4%N)
      else false].
Check (ltac:(vm_compute; reflexivity) : all run163 [:: 0; 1; 100; 180]%N = true).
(* C58 applies to every scalar of this instance *)
Example fixed163 (T : table F163) (s : F181) : exists res ws r',
  lreturns inst163 0 (mul_fixed_full pf163 pf181 181 2 4 fixc163 (known s) base163) = Ok ((res, ws), r') /\
  point_is res (pmul (pf_val pf181 s) (Some B163)).
Proof.
have h := @C58_mul_fixed_complete F163 b163 pf163 163 F181 pf181 181 2 4 fixc163 B163 base163 inst163 T place163 s 0
  good163 pf163_ok pf181_ok base163_ok base163_us fits163 isT isT erefl erefl isT.
case: h => res [ws [r' [h1 h2 _ _]]]; exists res, ws, r'; exact (conj h1 h2).
Qed.
