(* A case of C59 and C60: short signed scalars of 7 bits with the base of Ex_EccFixed. *)
Set Warnings "-notation-overridden,-ambiguous-paths".
From Coq Require Import NArith.
From mathcomp Require Import all_ssreflect all_algebra.
From Verif Require Import FieldTac Util M_Env M_Assigned P_Assigned M_Circuit S_Circuit M_Selectors M_Value M_Region S_Region
  M_Layout S_Layout M_Utilities L_Region L_Gadget M_Ecc S_Curve P_Ecc P_Bits S_Digits M_EccFixed M_EccShort
  Ex_Field163 Ex_Field181 Ex_Layout P_EccMul P_EccFixed P_EccFixedComplete Ex_EccFixed P_EccShort P_EccShortComplete.
Import GRing.Theory.
Set Implicit Arguments.
Unset Strict Implicit.
Local Open Scope ring_scope.

Definition shortc163 := ShortConfig 3 0 (FixedConfig [:: 1; 2; 3; 4]%N 0 9 10 addc163 incc163).
Definition short_sound163 := @C59_mul_short_sound F163 b163 pf163 163 F181 pf181 181 2 4 7 shortc163 B163 base163
  good163 pf163_ok pf181_ok base163_ok fits163 isT erefl.
(* the magnitude is in row 0 of region 0, the sign in row 1 *)
Definition mag163 (m : nat) : acell F163 := ACell (known m%:R) (Cell 0 0 (Advice, 11%N)).
Definition sgn163 (neg : bool) : acell F163 := ACell (known (if neg then -1 else 1)) (Cell 0 1 (Advice, 11%N)).
Definition sprog163 (t : nat * bool) := mul_fixed_short pf163 pf181 181 2 4 7 shortc163 (mag163 t.1) (sgn163 t.2) base163.
Definition sregions163 (t : nat * bool) : seq (nat * seq (rop F163)) :=
  (0%N, [:: OAdvice 11 0 (known (ATrivial t.1%:R)); OAdvice 11 1 (known (ATrivial (if t.2 then -1 else 1)))])
  :: lregions inst163 1 (sprog163 t).
Definition stable163 (t : nat * bool) : table F163 := honest_table place163 (sregions163 t).
Definition srun163 (t : nat * bool) : bool :=
  let T := stable163 t in
  [&& honestb place163 T (sregions163 t), all (fun rc => all (respects_opb T place163 rc.1) rc.2) (sregions163 t),
      all (fun row => all (fun g => at_row T (Posz row) g == 0)
        (short_gates b163 2 shortc163 ++ inc_gates F163 incc163 ++ add_gates F163 addc163)) (iota 0 30) &
      if lreturns inst163 1 (sprog163 t) is Ok ((res, zs), _) then
        ((cell_value T place163 (ec_cell (ep_x res)), cell_value T place163 (ec_cell (ep_y res)))
           == encode ((if t.2 then @popp F163 else id) (pmul t.1 (Some B163))))
        && (size zs == 5%N)
      else false].
Check (ltac:(vm_compute; reflexivity) : all srun163 [:: (0%N, false); (1%N, true); (77%N, true); (127%N, false)] = true).
(* 128 has eight bits: its honest table fails a gate *)
Check (ltac:(vm_compute; reflexivity) : srun163 (128%N, false) = false).
(* C60 applies to every 7-bit magnitude and every sign of this instance *)
Example short163 (T : table F163) (m : nat) (neg : bool) : (m < 128)%N -> exists res zs r',
  lreturns inst163 1 (sprog163 (m, neg)) = Ok ((res, zs), r') /\ point_is res (psigned neg (pmul m (Some B163))).
Proof.
move=> hm; have em : pf_val pf163 m%:R = m by rewrite (pf_natr pf163_ok) modn_small // (ltn_trans hm).
have hx : (pf_val pf163 m%:R < 2 ^ 7)%N by rewrite em.
have h := @C60_mul_short_complete F163 b163 pf163 163 F181 pf181 181 2 4 7 shortc163 B163 base163 inst163 T place163 m%:R neg
  (mag163 m) (sgn163 neg) 1 good163 pf163_ok isT pf181_ok base163_ok base163_us fits163 isT isT isT erefl isT erefl isT erefl erefl hx.
case: h => res [zs [r' [h1 h2 _ _]]]; rewrite em in h2; exists res, zs, r'; exact (conj h1 h2).
Qed.
