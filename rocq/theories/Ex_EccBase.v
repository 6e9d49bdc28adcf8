(* A case of C62: y^2 = x^3 + 101 over the field of 271 = 2^8 + 15 elements, a base of order 271, 3 windows of 3 bits, and a
   range check of 2 words of 2 bits. *)
Set Warnings "-notation-overridden,-ambiguous-paths".
From Coq Require Import NArith Nnat Lia.
From mathcomp Require Import all_ssreflect all_algebra.
From Verif Require Import FieldTac Util M_Env M_Assigned P_Assigned M_Circuit S_Circuit M_Selectors M_Value M_Region S_Region
  M_Layout S_Layout M_Utilities L_Region L_Gadget M_Ecc S_Curve P_Ecc P_Bits P_RangeCheck S_Digits M_EccFixed
  Ex_Field271 Ex_Layout P_EccMul P_EccFixed Ex_EccFixed M_EccShort P_EccShort M_EccBase P_EccBase.
Import GRing.Theory.
Set Implicit Arguments.
Unset Strict Implicit.
Local Open Scope ring_scope.

Definition F271 := K271_fieldType.
Definition pf271 : prime_field F271 := PrimeField (fun x : F271 => k_nat_271 x) 9 9.
Lemma k_natr_small_271 r : (r < 271)%N -> k_nat_271 (r%:R : K271) = r.
Proof. by move=> h; rewrite /k_nat_271 kval_nat_271 N.mod_small ?Nat2N.id //; move/ltP: h => h; lia. Qed.
Lemma pf271_ok : prime_field_ok pf271 271.
Proof.
split=> [|x|x|n||]; [by vm_compute|exact: k_nat_lt_271|exact: k_natrK_271| |by vm_compute|by vm_compute].
have e : (271%:R = 0 :> K271)%R by apply/eqP; vm_compute.
rewrite {1}(divn_eq n 271) natrD natrM e mulr0 add0r; apply: k_natr_small_271.
by rewrite ltn_pmod.
Qed.
Lemma every271 (f : pred K271) : all (fun i => f (kred_271 (N.of_nat i))) (iota 0 271) -> forall x, f x.
Proof.
move=> /allP h x; have := h (k_nat_271 x); rewrite k_natK_271; apply; rewrite mem_iota add0n /k_nat_271.
have := K271_lt x => /N.ltb_lt; set n := kval_271 x; clearbody n => hn.
by apply/ltP; lia.
Qed.
Definition b271 : F271 := 101%:R.
Example good271 : good_curve b271.
Proof.
split; first by vm_compute.
  by apply: (@every271 (fun y : F271 => y ^+ 2 != b271)); vm_compute.
by apply: (@every271 (fun x : F271 => x ^+ 3 + b271 != 0)); vm_compute.
Qed.
Definition B271 : F271 * F271 := (125%:R, 20%:R).
Definition ns271 (s : seq nat) : seq F271 := [seq x%:R | x <- s].
Definition lagrange271 : seq (seq F271) := odflt [::] (compute_lagrange_coeffs pf271 3 3 (Some B271)).
(* u is 0 where y + z has no square root: soundness does not need one *)
Definition base271_with (l : seq (seq F271)) : fixed_point F271 := FixedPoint (Some B271)
  [:: ns271 [:: 0; 96; 87; 0; 82; 122; 90; 27]%N; ns271 [:: 63; 13; 0; 0; 0; 130; 42; 0]%N; ns271 [:: 76; 0; 70; 0; 107; 15; 0; 0]%N]
  [:: 108; 206; 95]%N l.
Definition base271 : fixed_point F271 := base271_with lagrange271.
Example fits271 : windows_fit 271 3 3. Proof. by split; vm_compute. Qed.
Definition table271 := odflt [::] (compute_window_table pf271 3 3 (Some B271)).
Lemma z271 : all (fun w => all (fun k => if nth None (nth [::] table271 w) k is Some (x, y) then
    all (fun i => (kred_271 (N.of_nat i)) ^+ 2 != (nth 0%N [:: 108; 206; 95]%N w)%:R - y) (iota 0 271) else true) (iota 0 8)) (iota 0 3).
Proof. by vm_compute. Qed.
Lemma lagrange271E : if compute_lagrange_coeffs pf271 3 3 (Some B271) is Some _ then true else false. Proof. by vm_compute. Qed.
Lemma base271_with_ok l : compute_lagrange_coeffs pf271 3 3 (Some B271) = Some l -> fixed_base_ok b271 pf271 271 3 3 B271 (base271_with l).
Proof.
move=> hl; split.
- by [].
- by vm_compute.
- by apply/eqP; vm_compute.
- exact: hl.
- move=> tbl w k x y u et hw hk e; have := z271; rewrite /table271 et [odflt _ _]/=.
  move=> /allP/(_ w); rewrite mem_iota add0n => /(_ hw) /allP/(_ k); rewrite mem_iota add0n => /(_ hk).
  by rewrite e => /(@every271 (fun u : F271 => u ^+ 2 != _)).
Qed.
Example base271_ok : fixed_base_ok b271 pf271 271 3 3 B271 base271.
Proof. exact (base271_with_ok (@odfltK _ (compute_lagrange_coeffs pf271 3 3 (Some B271)) lagrange271E)). Qed.

Definition fixc271 := FixedConfig [:: 1; 2; 3; 4; 5; 6; 7; 8]%N 0 9 10 (AddConfig 2 4 0 1 2 3 5 6 7 8) (IncConfig 1 0 1 2 3).
Definition lrc271 := LRC 10 11 12 23 30.
Definition basec271 := BaseConfig 4 20 21 22 lrc271 (ShortConfig 3 0 fixc271).
(* C62 applies to this instance *)
Example base271_sound : mul_base_is_mul b271 pf271 pf271 271 3 3 1 2 2 15 basec271 B271 base271.
Proof. exact: (C62_mul_base_sound (p := 271) good271 pf271_ok pf271_ok base271_ok fits271). Qed.

(* and there are tables that meet its hypotheses: the honest prover's, for scalars above and below 2^8 *)
Definition inst271 (_ _ : nat) : value F271 := unknown.
Definition place271 (r : nat) : int := Posz (10 * r).
Definition prog271 (s : nat) := mul_fixed_base pf271 pf271 271 3 3 1 2 2 15 basec271 (ACell (known s%:R) (Cell 0 0 (Advice, 40%N))) base271.
Definition regions271 (s : nat) : seq (nat * seq (rop F271)) :=
  (0%N, [:: OAdvice 40 0 (known (ATrivial s%:R))]) :: lregions inst271 1 (prog271 s).
Definition htable271 (s : nat) : table F271 :=
  let T := honest_table place271 (regions271 s) in
  Table (fun k col row => if (k == Fixed) && (col == 30%N) then if row is Posz i then if (i < 4)%N then i%:R else 0 else 0 else t_cell T k col row)
        (t_selector T).
Definition run271 (s : nat) : bool :=
  let T := htable271 s in
  let rs := regions271 s in
  [&& honestb place271 T rs, all (fun rc => all (respects_opb T place271 rc.1) rc.2) rs,
      all (fun row => all (fun g => at_row T (Posz row) g == 0)
        (base_gates b271 3 3 1 2 2 15 basec271 ++ inc_gates F271 (fx_inc fixc271) ++ add_gates F271 (fx_add fixc271))) (iota 0 50),
      all (fun row => at_row T (Posz row) (lrc_lookup F271 lrc271 2) \in [:: 0; 1; 2%:R; 3%:R]) (iota 0 50) &
      if lreturns inst271 1 (prog271 s) is Ok (res, _) then
        (cell_value T place271 (ec_cell (ep_x res)), cell_value T place271 (ec_cell (ep_y res))) == encode (pmul s (Some B271))
      else false].
Check (ltac:(vm_compute; reflexivity) : all run271 [:: 175; 256; 270]%N = true).
