(* The steps of create_proof and what verify_proof reads back from each. *)
Set Warnings "-notation-overridden,-ambiguous-paths".
From mathcomp Require Import all_ssreflect all_algebra.
From Verif Require Import Util M_Poly M_Domain L_Domain P_Domain M_Assigned M_Env M_Transcript L_Transcript M_Commit S_Commit L_Commit
  P_Commit L_WP L_WPR M_Multiopen M_Circuit M_Selectors L_Selectors M_Keys M_Permutation M_Lookup L_Sigma L_PermCommit M_Vanishing M_Plonk
  L_Wpe.
Import GRing.Theory.
Set Implicit Arguments.
Unset Strict Implicit.
Local Open Scope ring_scope.

Section Run.
Variables (F B : fieldType) (G : lmodType F) (E : env B G) (ps : params G).
Hypotheses (ok : env_ok E) (pok : params_ok E ps).
Variables (qd : nat) (d : domain F).
Hypothesis hd : domain_new (e_rou E) (e_zeta E) (e_S E) qd (p_k ps) = Some d.
Notation n := (2 ^ p_k ps)%N.
Notation omega := (d_omega d).
Notation threads := (e_threads E).
Notation cof := (commitment_of ps).

(* k columns: values, coefficients and cosets *)
Record cols_ok (k : nat) (vals polys csts : seq (seq F)) : Prop := ColsOk {
  co_vals : size vals = k; co_polys : size polys = k; co_cosets : size csts = k;
  co_nvals : forall c, (c < k)%N -> size (nth [::] vals c) = n;
  co_npolys : forall c, (c < k)%N -> size (nth [::] polys c) = n;
  co_eval : forall c i, (c < k)%N -> (i < n)%N -> (Poly (nth [::] polys c)).[omega ^+ i] = nth 0 (nth [::] vals c) i;
  co_coset : forall c, (c < k)%N -> nth [::] csts c = coset_of E d (nth [::] polys c) }.

Lemma cols_okI vals : all (fun v => size v == n) vals -> exists polys csts,
  [/\ sequence [seq lagrange_to_coeff threads d v | v <- vals] = Some polys,
      sequence [seq coeff_to_extended threads d p | p <- polys] = Some csts,
      cols_ok (size vals) vals polys csts &
      forall c blind, (c < size vals)%N -> commit_lagrange E ps (nth [::] vals c) blind = Some (cof (nth [::] polys c) blind)].
Proof.
elim: vals => [|v vals IH] /=; first by exists [::], [::]; split=> //; split.
move=> /andP [/eqP hv /IH [polys [csts [e1 e2 [h1 h2 h3 h4 h5 h6 h7] h8]]]].
have [zp [sz ez vz cz]] := lagrange_facts ok pok hd hv.
exists (zp :: polys), (coset_of E d zp :: csts); rewrite /= ez e1 /= (coset_ofE ok hd sz) e2; split=> //.
  split=> //=; rewrite ?h2 ?h3 //.
  - by case=> [|c] //=; apply: h4.
  - by case=> [|c] //=; apply: h5.
  - by case=> [|c] i hc; [exact: vz|exact: h6].
  - by case=> [|c] //=; apply: h7.
by case=> [|c] blind hc; [exact: cz|exact: h8].
Qed.

Lemma wpr_common_points (l : seq G) s :
  wp (mmap (w_common_point E) l) s (fun o s' => replays s s' (mmap (r_common_point E) l) o).
Proof.
elim: l s => [|p l IH] s /=; first exact: replays_ret.
apply: wp_bind; apply: (wpr_common_point ok) => s1 h1; apply: wp_bind.
apply: wp_weaken (IH s1) => o s2 h2; apply: wp_ret.
by apply: replays_bind h1 _; apply: replays_bind h2 _; exact: replays_ret.
Qed.

(* ---------------------------------------------------------------- instances *)
Variable m : cs F.
Notation bf := (blinding_factors m).
Notation u := (n - (bf + 1))%N.
Hypothesis hbf : (bf + 1 <= n)%N.
Lemma n_pos : (0 < n)%N. Proof. by rewrite expn_gt0. Qed.
Lemma usable_rowsE : usable_rows n m = Ok u. Proof. by rewrite /usable_rows hbf. Qed.

Definition padded (col : seq F) : seq F := col ++ nseq (n - size col) 0.
Lemma padded_size col : (size col <= u)%N -> size (padded col) = n.
Proof. by move=> h; rewrite size_cat size_nseq subnKC // (leq_trans h (leq_subr _ _)). Qed.
Lemma instance_columnE inst : all (fun col => size col <= u)%N inst ->
  rmap (instance_column ps d m) inst = Ok (map padded inst).
Proof.
elim: inst => //= c inst IH /andP [h1 /IH ->].
rewrite /instance_column (ok_n (dok ok hd)) (ps_n pok) eqxx /= usable_rowsE /=.
by rewrite ltnNge h1 /=.
Qed.
Lemma instance_commitmentE inst : all (fun col => size col <= u)%N inst -> exists polys csts,
  [/\ sequence [seq lagrange_to_coeff threads d v | v <- map padded inst] = Some polys,
      sequence [seq coeff_to_extended threads d p | p <- polys] = Some csts,
      cols_ok (size inst) (map padded inst) polys csts,
      rmap (instance_commitment E ps d m) inst = Ok [seq cof p 1 | p <- polys] &
      sequence [seq commit_lagrange E ps v (blind_default F) | v <- map padded inst] = Some [seq cof p 1 | p <- polys]].
Proof.
move=> hi; have hall : all (fun v => size v == n) (map padded inst).
  by rewrite all_map; apply: sub_all hi => c hc /=; rewrite padded_size.
have [polys [csts [e1 e2 co hc]]] := cols_okI hall; rewrite size_map in co hc.
exists polys, csts; split=> //; last first.
  rewrite [map padded inst](seq_mkseq [::]) [polys](seq_mkseq [::]) !map_mkseq (co_polys co) size_map.
  by apply: sequence_mkseq => i; exact: hc.
clear e1 e2; have sp := co_polys co; have {co}hc c : (c < size inst)%N -> commit_lagrange E ps (nth [::] (map padded inst) c) 1 = Some (cof (nth [::] polys c) 1).
  exact: hc.
elim: inst polys hi sp hc {hall} => [|c inst IH] [|p polys] //= /andP [h1 h2] [sp] hc.
rewrite (IH polys) // => [|i hi]; last exact: (hc i.+1).
rewrite /instance_commitment (ps_n pok) usable_rowsE /= ltnNge h1 /= /resize.
rewrite take_oversize ?(leq_trans h1 (leq_subr _ _)) // -/(padded c) padded_size // (ok_n (dok ok hd)) eqxx /=.
by rewrite (hc 0%N isT).
Qed.

Lemma commit_instance_run inst s : all (fun col => size col <= u)%N inst -> exists comms,
  rmap (instance_commitment E ps d m) inst = Ok comms /\
  wp (commit_instance E ps d m inst) s (fun r s' =>
   exists2 o, replays s s' (mmap (r_common_point E) comms) o &
   [/\ cols_ok (size inst) (is_values r) (is_polys r) (is_cosets r), is_values r = map padded inst,
       size comms = size inst & forall c, (c < size inst)%N -> nth 0 comms c = cof (nth [::] (is_polys r) c) 1]).
Proof.
move=> hi; have [polys [csts [e1 e2 co ec e3]]] := instance_commitmentE hi.
exists [seq cof p 1 | p <- polys]; split=> //.
apply: wp_bind; apply: (wp_lift (instance_columnE hi)); apply: wp_bind; apply: (wp_unwrap e3).
apply: wp_bind; have := wpr_common_points [seq cof p 1 | p <- polys] s.
apply: wp_weaken => o s' h; apply: wp_bind; apply: (wp_unwrap e1); apply: wp_bind; apply: (wp_unwrap e2).
apply: wp_ret; exists o => //; split=> //; first by rewrite size_map (co_polys co).
by move=> c hc; rewrite (nth_map [::]) ?(co_polys co).
Qed.

(* ---------------------------------------------------------------- advice *)
Lemma blind_column_run col s : size col = n ->
  wp (blind_column E u col) s (fun r s' => [/\ silent s s', size r = n & forall i, (i < u)%N -> nth 0 r i = nth 0 col i]).
Proof.
move=> hs; apply: wp_bind; apply: wpr_draws => rs s1 h1 e; apply: wp_ret; split=> //.
  by rewrite size_cat e size_drop size_takel ?hs ?leq_subr // subnKC ?leq_subr.
by move=> i hi; rewrite nth_cat size_takel ?hs ?leq_subr // hi nth_take.
Qed.
Lemma blind_columns_run cols s : all (fun c => size c == n) cols ->
  wp (mmap (blind_column E u) cols) s (fun r s' => [/\ silent s s', size r = size cols, all (fun c => size c == n) r &
    forall c i, (c < size cols)%N -> (i < u)%N -> nth 0 (nth [::] r c) i = nth 0 (nth [::] cols c) i]).
Proof.
elim: cols s => [|c cols IH] s /=; first by [].
move=> /andP [/eqP hc /IH{}IH]; apply: wp_bind; apply: wp_weaken (blind_column_run s hc) => r s1 [h1 h2 h3].
apply: wp_bind; apply: wp_weaken (IH s1) => rs s2 [h4 h5 h6 h7]; apply: wp_ret; split=> //=.
- exact: silent_trans h1 h4.
- by rewrite h5.
- by rewrite h2 eqxx.
by case=> [|q] i hq hi; [exact: h3|exact: h7].
Qed.

Lemma commit_advice_run adv s : all (fun c => size c == n) adv ->
  wp (commit_advice E ps d m (Ok adv)) s (fun r s' =>
   exists2 comms, replays s s' (read_n_points E (size adv)) comms &
   [/\ cols_ok (size adv) (as_values r) (as_polys r) (as_cosets r), size (as_blinds r) = size adv, size comms = size adv,
       forall c, (c < size adv)%N -> nth 0 comms c = cof (nth [::] (as_polys r) c) (nth 0 (as_blinds r) c) &
       forall c i, (c < size adv)%N -> (i < u)%N -> nth 0 (nth [::] (as_values r) c) i = nth 0 (nth [::] adv c) i]).
Proof.
move=> ha; rewrite /commit_advice (ps_n pok) usable_rowsE; apply: wp_bind; apply: (wp_lift (erefl (Ok u))); apply: wp_bind.
apply: (wp_lift (erefl (Ok adv))); apply: wp_bind.
apply: wp_weaken (blind_columns_run s ha) => vals s1 [h1 h2 h3 h4]; apply: wp_bind.
apply: wpr_draws => blinds s2 h5 h6; have [polys [csts [e1 e2 co hc]]] := cols_okI h3.
pose comms := [seq cof pb.1 pb.2 | pb <- zip polys blinds].
have sc : size comms = size adv by rewrite size_map size1_zip ?h6 ?(co_polys co) ?h2.
have e3 : sequence [seq commit_lagrange E ps vb.1 vb.2 | vb <- zip vals blinds] = Some comms.
  rewrite /comms [vals](seq_mkseq [::]) [polys](seq_mkseq [::]) [blinds](seq_mkseq 0) h6 (co_polys co).
  rewrite !zip_mkseq !map_mkseq; apply: sequence_mkseq => i hi /=; exact: hc.
apply: wp_bind; apply: (wp_unwrap e3); apply: wp_bind.
apply: (wpr_write_points (l' := iota 0 (size adv)) ok); first by rewrite size_iota sc.
move=> s3 h7; apply: wp_bind; apply: (wp_unwrap e1); apply: wp_bind; apply: (wp_unwrap e2); apply: wp_ret.
exists comms; first by apply: replays_silent h1 _; apply: replays_silent h5 _.
split=> //=; [by rewrite -h2|by rewrite h6 h2|].
move=> c hc'; rewrite /comms (nth_map ([::], 0)) ?nth_zip //= ?size1_zip ?h6 ?(co_polys co) ?h2 //.
Qed.

(* ---------------------------------------------------------------- evaluations *)
Variable x : F.
(* the value of a polynomial at a rotation of x *)
Definition pev (poly : seq F) (r : int) : F := (Poly poly).[x * omega ^ r].
Lemma rotE r : rotate_omega d x r = x * omega ^ r.
Proof. exact: (C04_rotate_omega (fc ok) hd). Qed.
Lemma pev0 poly : eval_polynomial poly x = pev poly 0.
Proof. by rewrite eval_Poly /pev expr0z mulr1. Qed.
Lemma pevr poly r : eval_polynomial poly (rotate_omega d x r) = pev poly r.
Proof. by rewrite eval_Poly rotE. Qed.

Lemma write_evals_run polys qs s : all (fun q : nat * int => q.1 < size polys)%N qs ->
  wp (write_evals E (query_evals d x polys qs)) s (fun _ s' =>
    replays s s' (read_n_scalars E (size qs)) [seq pev (nth [::] polys q.1) q.2 | q <- qs]).
Proof.
move=> hq; have e : query_evals d x polys qs = Some [seq pev (nth [::] polys q.1) q.2 | q <- qs].
  by apply: sequence_map => q /(allP hq) h; rewrite (getE [::]) //= pevr.
apply: wp_bind; rewrite e; apply: (wp_unwrap erefl); apply: wp_bind.
by apply: (wpr_write_scalars (l' := iota 0 (size qs)) ok); rewrite ?size_iota ?size_map // => s' h; apply: wp_ret.
Qed.

Lemma perm_pk_evaluate_run pk s : size (vk_permutation (pk_vk pk)) = size (pk_perm_polys pk) ->
  wp (perm_pk_evaluate E pk x) s (fun _ s' =>
    replays s s' (perm_vk_evaluate E (pk_vk pk)) [seq pev p 0 | p <- pk_perm_polys pk]).
Proof.
move=> hs; apply: wp_bind.
have -> : mmap (fun poly => write_scalar E (eval_polynomial poly x)) (pk_perm_polys pk) =
    mmap (write_scalar E) [seq pev p 0 | p <- pk_perm_polys pk].
  by elim: (pk_perm_polys pk) => //= p l ->; rewrite pev0.
by apply: (wpr_write_scalars (l' := vk_permutation (pk_vk pk)) ok); rewrite ?size_map // => s' h; apply: wp_ret.
Qed.

(* the evaluated sets of a permutation argument *)
Definition vset_of (sets : seq (pset F)) (comms : seq G) (t : nat) : vset G :=
  let st := nth (PSet [::] 0 0) sets t in
  VSet (nth 0 comms t) (pev (s_poly st) 0) (pev (s_poly st) rot_next)
    (if (t.+1 < size sets)%N then Some (pev (s_poly st) (rot_last bf)) else None).
Lemma perm_evaluate_run sets comms s : size comms = size sets ->
  wp (perm_evaluate E d bf x sets) s (fun _ s' =>
    replays s s' (perm_read_evals E comms) (mkseq (vset_of sets comms) (size sets))).
Proof.
elim: sets comms s => [|st sets IH] [|c comms] s //=; first by move=> _; exact: replays_ret.
move=> [hs]; apply: wp_bind; apply: (wpr_write_scalar ok) => s1 h1; apply: wp_bind.
apply: (wpr_write_scalar ok) => s2 h2; rewrite pev0 in h1; rewrite pevr in h2.
apply: wp_bind; apply: (@wp_weaken _ _ _ _ (fun _ s3 => replays s2 s3
   (if comms is _ :: _ then let! l := read_scalar E in mret (Some l) else mret None)
   (if (0 < size sets)%N then Some (pev (s_poly st) (rot_last bf)) else None))).
  move=> _ s3 h3; apply: wp_weaken (IH comms s3 hs) => _ s4 h4.
  apply: replays_bind h1 _; apply: replays_bind h2 _; apply: replays_bind h3 _; apply: replays_bind h4 _.
  have -> : mkseq (vset_of (st :: sets) (c :: comms)) (size sets).+1 =
     VSet c (pev (s_poly st) 0) (pev (s_poly st) rot_next) (if (0 < size sets)%N then Some (pev (s_poly st) (rot_last bf)) else None)
     :: mkseq (vset_of sets comms) (size sets).
    by rewrite /mkseq /= -[1%N]/(0 + 1)%N addnC iotaDl -map_comp; congr (_ :: _).
  exact: replays_ret.
case: sets comms hs {IH} => [|st' sets] [|c' comms] //= _; first exact: replays_ret.
apply: (wpr_write_scalar ok) => s3; rewrite pevr => h3; by apply: replays_bind h3 _; exact: replays_ret.
Qed.

Definition vlookup_of (c : lcommitted F) (cs : G * G * G) : vlookup G :=
  let p := lc_permuted c in
  VLookup cs.1.1 cs.1.2 cs.2 (pev (lc_poly c) 0) (pev (lc_poly c) rot_next)
    (pev (lp_pinput_poly p) 0) (pev (lp_pinput_poly p) rot_prev) (pev (lp_ptable_poly p) 0).
Lemma write_five (e1 e2 e3 e4 e5 : F) (cs : G * G * G) s :
  wp (mmap (fun e => write_scalar E e) [:: e1; e2; e3; e4; e5] ;;; mret tt) s (fun _ s' =>
    replays s s' (lookup_read_evals E cs) (VLookup cs.1.1 cs.1.2 cs.2 e1 e2 e3 e4 e5)).
Proof.
refine (wp_bind _); simpl.
refine (wp_bind _); refine (wpr_write_scalar ok _); move=> s1 h1; refine (wp_bind _).
refine (wp_bind _); refine (wpr_write_scalar ok _); move=> s2 h2; refine (wp_bind _).
refine (wp_bind _); refine (wpr_write_scalar ok _); move=> s3 h3; refine (wp_bind _).
refine (wp_bind _); refine (wpr_write_scalar ok _); move=> s4 h4; refine (wp_bind _).
refine (wp_bind _); refine (wpr_write_scalar ok _); move=> s5 h5; refine (wp_bind _).
do 7! refine (wp_ret _).
refine (replays_bind h1 _); refine (replays_bind h2 _); refine (replays_bind h3 _); refine (replays_bind h4 _).
by refine (replays_bind h5 _); exact: replays_ret.
Qed.
Lemma lookup_evaluate_run c cs s :
  wp (lookup_evaluate E d x c) s (fun _ s' => replays s s' (lookup_read_evals E cs) (vlookup_of c cs)).
Proof.
rewrite /lookup_evaluate; cbv zeta.
rewrite [eval_polynomial _ (rotate_omega d x rot_next)]pevr.
rewrite [eval_polynomial _ (rotate_omega d x rot_prev)]pevr.
rewrite [eval_polynomial (lc_poly c) x]pev0.
rewrite [eval_polynomial (lp_pinput_poly _) x]pev0.
rewrite [eval_polynomial (lp_ptable_poly _) x]pev0.
rewrite /vlookup_of; cbv zeta.
refine (write_five _ _ _ _ _ cs s).
Qed.
End Run.
