(* The quotient step of the prover for arbitrary expressions, whether or not they vanish. *)
Set Warnings "-notation-overridden,-ambiguous-paths".
From mathcomp Require Import all_ssreflect all_algebra.
From Verif Require Import Util M_Poly L_Poly M_Domain L_Domain P_Domain M_Evaluator S_Evaluator P_Evaluator M_Assigned M_Env M_Transcript
  L_Transcript M_Commit S_Commit L_Commit P_Commit L_WP L_WPR M_Multiopen M_Circuit M_Selectors M_Keys M_Permutation L_PermCommit
  S_Permutation M_Vanishing P_Vanishing.
Import GRing.Theory.
Set Implicit Arguments.
Unset Strict Implicit.
Local Open Scope ring_scope.

Lemma wp_imp S A (x : M S A) s (Q1 Q2 : A -> S -> Prop) (H : Prop) :
  wp x s Q1 -> (H -> wp x s Q2) -> wp x s (fun a s' => Q1 a s' /\ (H -> Q2 a s')).
Proof. by rewrite /wp; case: (x s) => [[a s']|[]|] //= h1 h2; split. Qed.

Section Any.
Variables (F B : fieldType) (G : lmodType F) (E : env B G) (ps : params G).
Hypotheses (ok : env_ok E) (pok : params_ok E ps).
Variables (j : nat) (d : domain F).
Hypothesis hd : domain_new (e_rou E) (e_zeta E) (e_S E) j (p_k ps) = Some d.
Notation n := (2 ^ p_k ps)%N.
Notation omega := (d_omega d).
Notation coset p := (mkseq (fun i => p.[e_zeta E * d_ext_omega d ^+ i]) (2 ^ d_ek d)).

Lemma extended_to_coeff_total v : size v = (2 ^ d_ek d)%N ->
  exists2 c, extended_to_coeff (e_threads E) d v = Some c & size c = (n * (j - 1))%N.
Proof.
move=> hv; have dk := dok ok hd; have [z3 zt] := ok_zeta ok.
rewrite /extended_to_coeff hv eqxx (ok_ext_inv dk) (ok_ext_div dk).
rewrite (ifftE (ok_threads ok) (ok_ext dk)) //= (distributeE z3 (ok_threads ok) dk) ?size_mkseq ?hv ?expn_gt0 //=.
eexists; first by reflexivity.
by rewrite size_takel ?size_mapi ?size_mkseq ?hv (ok_n dk) (ok_qd dk) // (ok_room dk).
Qed.
Lemma divide_total v : size v = (2 ^ d_ek d)%N ->
  exists2 c, divide_by_vanishing_poly (e_threads E) d v = Some c & size c = (2 ^ d_ek d)%N.
Proof.
move=> hv; rewrite /divide_by_vanishing_poly hv eqxx parallelize_mapi ?hv ?expn_gt0 ?(ok_threads ok) //.
by eexists; [reflexivity|rewrite size_mapi hv].
Qed.

Lemma vanishing_construct_any (Ps : seq {poly F}) (asts : seq (ast F)) (y : F) c (vk : vkey G) s :
  vk_domain vk = d -> Ps != [::] ->
  all (fun a => all (fun l => (l.1 < size Ps)%N && (`|l.2| <= n)%N) (leaves a)) asts ->
  wp (vanishing_construct E ps d [seq coset p | p : {poly F} <- Ps] asts y c) s (fun r s' =>
    [/\ vn_committed r = c,
        size (vn_pieces r) = (j - 1)%N /\ all (fun p => size p == n) (vn_pieces r),
        size (vn_blinds r) = (j - 1)%N &
        exists2 comms, replays s s' (vanishing_read_after_y E vk) comms &
          [seq commit E ps pb.1 pb.2 | pb <- zip (vn_pieces r) (vn_blinds r)] = [seq Some c | c <- comms]]).
Proof.
move=> hvk P0 hl; have dk := dok ok hd; have n0 : (0 < n)%N by rewrite expn_gt0.
apply: wp_bind; apply: wp_unwrap.
  apply: (C08_evaluate_poly_extended (fc ok) (ok_threads ok) hd P0).
  by rewrite /=; elim: (asts) hl => //= a l IH /andP [h1 /IH]; rewrite all_cat h1.
set v := mkseq _ _; have [dv e1 s1] := divide_total (v := v) (size_mkseq _ _).
have [cf e2 s2] := extended_to_coeff_total s1.
apply: wp_bind; apply: (wp_unwrap e1); apply: wp_bind; apply: (wp_unwrap e2).
have [p1 p2 _] := @pieces_ok F n (j - 1) cf n0 s2.
apply: wp_bind; apply: (@wp_unwrap _ _ _ (chunks n cf)).
  rewrite /chunks_exact (ps_n pok) -[_ == _]/(_ == _) (negbTE (_ : n != 0%N)) -?lt0n //; congr Some.
  by move: p1; elim: chunks => //= x l IH /andP [-> /IH ->].
move: (chunks _ _) p1 p2 => pieces p1 p2.
rewrite (ok_n dk) p1 [~~ _]/=; apply: wp_bind; apply: wpr_draws => bs s3 h1 hbs; apply: wp_bind.
pose comms := [seq commitment_of ps pb.1 pb.2 | pb <- zip pieces bs].
have ec : [seq commit E ps pb.1 pb.2 | pb <- zip pieces bs] = [seq Some c | c <- comms].
  rewrite /comms -map_comp; elim: (pieces) (bs) p1 => [|p l IH] [|b bs'] //= /andP [/eqP hp /IH ->].
  by rewrite commitE ?(ps_g pok).
apply: (@wp_unwrap _ _ _ comms); first by rewrite ec; elim: (comms) => //= x l ->.
have sc : size comms = (j - 1)%N by rewrite size_map size1_zip ?p2 ?hbs ?p2.
apply: wp_bind; apply: (wpr_write_points (l' := iota 0 (d_qd (vk_domain vk))) ok).
  by rewrite size_iota hvk (ok_qd dk) sc.
move=> s4 h2; apply: wp_ret; split=> //; first by rewrite /= hbs.
by exists comms => //; apply: replays_silent h1 _.
Qed.
End Any.
