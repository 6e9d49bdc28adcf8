(* C53: every challenge of verify_proof is the hash of the verifying key's digest, the public inputs' commitments and
   every message before it, and the opening argument is run on these very commitments and evaluations. *)
Set Warnings "-notation-overridden,-ambiguous-paths".
From mathcomp Require Import all_ssreflect all_algebra.
From Verif Require Import Util L_Chunks M_Poly M_Domain L_Domain M_Evaluator M_Env M_Transcript L_Transcript P_Transcript
  M_Commit S_Commit L_Commit P_Commit M_IPA M_Multiopen P_Multiopen M_Circuit M_Selectors L_Selectors M_Copy M_Keys M_Permutation M_Lookup L_Sigma
  M_Vanishing M_Plonk S_Assign L_MoProof L_PlonkTrace Ex_Env.
Import GRing.Theory.
Set Implicit Arguments.
Unset Strict Implicit.
Local Open Scope ring_scope.

Section Spec.
Variables (F B : fieldType) (G : lmodType F) (E : env B G) (ps : params G).
Notation item := (item G).
Notation IPoint := (@IPoint F G).
Notation IScalar := (@IScalar F G).
Notation IChallenge := (@IChallenge F G).

(* What the prover sends: commitments to the advice columns, to the permuted input and table of every lookup, to the
   products of the permutation and of the lookups, to the random polynomial and to the pieces of the quotient, and the
   evaluations. *)
Record messages := Messages {
  ms_advice : seq (seq G); ms_permuted : seq (seq (G * G)); ms_zperm : seq (seq G); ms_zlook : seq (seq G);
  ms_random : G; ms_pieces : seq G; ms_evals : seq F }.

Section Contents.
Variables (digest : F) (inst : seq (seq G)) (ms : messages).
(* what has been hashed before each challenge *)
Definition theta_input : seq item := IScalar digest :: map IPoint (flatten inst) ++ map IPoint (flatten (ms_advice ms)).
Definition beta_input : seq item :=
  theta_input ++ IChallenge :: map IPoint (flatten [seq [:: p.1; p.2] | p <- flatten (ms_permuted ms)]).
Definition gamma_input : seq item := beta_input ++ [:: IChallenge].
Definition y_input : seq item :=
  gamma_input ++ IChallenge :: map IPoint (flatten (ms_zperm ms) ++ flatten (ms_zlook ms) ++ [:: ms_random ms]).
Definition x_input : seq item := y_input ++ IChallenge :: map IPoint (ms_pieces ms).
Definition opening_input : seq item := x_input ++ IChallenge :: map IScalar (ms_evals ms).
(* the bytes of the proof before the opening argument *)
Definition proof_bytes : seq nat :=
  flatten [seq e_to_bytes E p | p <- flatten (ms_advice ms) ++ flatten [seq [:: p.1; p.2] | p <- flatten (ms_permuted ms)] ++
    flatten (ms_zperm ms) ++ flatten (ms_zlook ms) ++ [:: ms_random ms] ++ ms_pieces ms] ++
  flatten [seq e_repr E x | x <- ms_evals ms].
End Contents.
(* the bytes hashed for a list of items, and the challenge they give *)
Definition hashed (l : seq item) : seq nat := flatten [seq enc E i | i <- l].
Definition challenge (l : seq item) : F := e_uniform E (e_blake E (hashed (l ++ [:: IChallenge]))).

Variables (vk : vkey G) (instances : seq (seq (seq F))).
Notation m := (vk_cs vk).
Notation np := (size instances).
(* The public inputs, padded with zeros, are committed to with blind 1. *)
Definition instance_commitments (inst : seq (seq G)) : Prop := rectangle np (num_instance m) inst /\
  forall i c, (i < np)%N -> (c < num_instance m)%N ->
    commit_lagrange E ps (mkseq (nth 0 (nth [::] (nth [::] instances i) c)) (p_n ps)) 1 = Some (nth 0 (nth [::] inst i) c).
Definition right_sizes (ms : messages) : Prop :=
  [/\ rectangle np (num_advice m) (ms_advice ms), rectangle np (size (lookups m)) (ms_permuted ms),
      rectangle np (size (chunks (vk_cs_degree vk - 2) (permutation m))) (ms_zperm ms),
      rectangle np (size (lookups m)) (ms_zlook ms) & size (ms_pieces ms) = d_qd (vk_domain vk)].
(* the commitment opened under a key *)
Definition commitment_for (inst : seq (seq G)) (ms : messages) (x : F) (k : qkey) : G :=
  let: (kind, (i, c)) := k in
  match kind with
  | 0%N => nth 0 (nth [::] inst i) c
  | 1%N => nth 0 (nth [::] (ms_advice ms) i) c
  | 2%N => nth 0 (nth [::] (ms_zperm ms) i) c
  | 3%N => nth 0 (nth [::] (ms_zlook ms) i) c
  | 4%N => (nth (0, 0) (nth [::] (ms_permuted ms) i) c).1
  | 5%N => (nth (0, 0) (nth [::] (ms_permuted ms) i) c).2
  | 6%N => nth 0 (vk_fixed_commitments vk) c
  | 7%N => nth 0 (vk_permutation vk) c
  | 8%N => \sum_(j < size (ms_pieces ms)) (x ^+ p_n ps) ^+ j *: nth 0 (ms_pieces ms) j
  | _ => ms_random ms
  end.
Definition carries (data : cref B G) (v : G) : Prop :=
  match data with CCommitment c => c = v | CMsm ms => stands_for E ps ms v end.
Definition right_query (inst : seq (seq G)) (ms : messages) (x : F) (q : vquery B G qkey_eqType) : Prop :=
  carries (q_data q) (commitment_for inst ms x (q_key q)) /\ ((q_key q).1 = 8%N \/ q_eval q \in ms_evals ms).

(* Everything said about a run of the verifier up to the opening argument, on fresh input bytes *)
Record transcript_of (bytes : seq nat) (vt : vtrace B G) (s' : rst) (inst : seq (seq G)) (ms : messages) : Prop := TranscriptOf {
  to_inst : instance_commitments inst;
  to_sizes : right_sizes ms;
  to_theta : vt_theta vt = challenge (theta_input (vk_transcript_repr vk) inst ms);
  to_beta : vt_beta vt = challenge (beta_input (vk_transcript_repr vk) inst ms);
  to_gamma : vt_gamma vt = challenge (gamma_input (vk_transcript_repr vk) inst ms);
  to_y : vt_y vt = challenge (y_input (vk_transcript_repr vk) inst ms);
  to_x : vt_x vt = challenge (x_input (vk_transcript_repr vk) inst ms);
  (* the state with which the opening argument begins, and what is left for it to read *)
  to_state : r_abs s' = hashed (opening_input (vk_transcript_repr vk) inst ms);
  to_bytes : bytes = proof_bytes ms ++ r_in s';
  to_queries : forall q, List.In q (vt_queries vt) -> right_query inst ms (vt_x vt) q;
  to_points : all (fun p => p != 0) (flatten inst ++ flatten (ms_advice ms) ++
    flatten [seq [:: p.1; p.2] | p <- flatten (ms_permuted ms)] ++ flatten (ms_zperm ms) ++ flatten (ms_zlook ms) ++
    ms_random ms :: ms_pieces ms) }.
End Spec.
Arguments Messages {F G}.

Section Reads.
Variables (F B : fieldType) (G : lmodType F) (E : env B G) (ps : params G).
Hypotheses (ok : env_ok E).
Notation item := (item G).
Notation IPoint := (@IPoint F G).
Notation IScalar := (@IScalar F G).
Notation IChallenge := (@IChallenge F G).
Notation hashed := (@hashed F B G E).
Definition wire1 (i : item) : seq nat :=
  match i with P_Transcript.IPoint p => e_to_bytes E p | P_Transcript.IScalar x => e_repr E x | _ => [::] end.
Definition wire (l : seq item) := flatten (map wire1 l).
Lemma hashed_cat a b : hashed (a ++ b) = hashed a ++ hashed b. Proof. by rewrite /hashed map_cat flatten_cat. Qed.
Lemma wire_cat a b : wire (a ++ b) = wire a ++ wire b. Proof. by rewrite /wire map_cat flatten_cat. Qed.
Definition reads A (x : R A) (it : A -> seq item) : Prop := forall s a s', x s = Ok (a, s') ->
  [/\ r_abs s' = r_abs s ++ hashed (it a), r_in s = wire (it a) ++ r_in s' & all (@good_item F G) (it a)].

Lemma absorb_inv st p : (absorb_point E st p).2 -> (absorb_point E st p).1 = st ++ hashed [:: IPoint p] /\ p != 0.
Proof.
move=> h; split; last by rewrite -(ok_coords0 ok); move: h; rewrite /absorb_point; case: e_coords => [[]|].
by move: h; rewrite /absorb_point /hashed /=; case: e_coords => [[a b]|] //= _; rewrite cats0 -!catA.
Qed.
Lemma common_point_inv p s a s' : r_common_point E p s = Ok (a, s') ->
  [/\ r_abs s' = r_abs s ++ hashed [:: IPoint p], r_in s' = r_in s & p != 0].
Proof.
rewrite /r_common_point; have := @absorb_inv (r_abs s) p; case: absorb_point => st [] //= /(_ isT) [-> h] [_ <-].
by [].
Qed.
Lemma get_inv k s a s' : r_get k s = Ok (a, s') -> r_abs s' = r_abs s /\ r_in s = a ++ r_in s'.
Proof. by rewrite /r_get; case: ifP => // _ [<- <-] /=; rewrite cat_take_drop. Qed.
Lemma reads_point : reads (read_point E) (fun p => [:: IPoint p]).
Proof.
move=> s a s' e; sbind e b s1 => /(@get_inv _ _ _ _) [h1 h2]; sbind e p s2 => h3; sbind e t s3 => h4; case: e => ? ?; subst.
have [h5 e2] := mlift_inv h3; rewrite {}e2 in h4; have [h6 h7 h8] := common_point_inv h4.
move: h5; case eb: e_from_bytes => [q|] //= [eq]; rewrite h6 h1 h2 h7 /wire /= cats0 -eq (ok_bytes_canon ok eb); split=> //.
by rewrite eq h8.
Qed.
Lemma reads_scalar : reads (read_scalar E) (fun x => [:: IScalar x]).
Proof.
move=> s a s' e; sbind e b s1 => /(@get_inv _ _ _ _) [h1 h2]; sbind e p s2 => h3; sbind e t s3 => h4; case: e => ? ?; subst.
have [h5 e2] := mlift_inv h3; rewrite {}e2 in h4; case: h4 => _ <-.
move: h5; case eb: e_from_repr => [q|] //= [eq]; rewrite h1 h2 /wire /hashed /= /absorb_scalar !cats0 -eq (ok_repr_canon ok eb); split=> //.
by rewrite -catA.
Qed.
Lemma reads_ret A (a : A) (it : A -> seq item) : it a = [::] -> reads (mret a) it.
Proof. by move=> e s b s' [<- <-]; rewrite e /hashed /wire /= cats0. Qed.
Lemma reads_bind A C (x : R A) (f : A -> R C) (it1 : A -> seq item) (it2 : A -> C -> seq item) (it : C -> seq item) :
  reads x it1 -> (forall a, reads (f a) (it2 a)) -> (forall s a s' c s'', x s = Ok (a, s') -> f a s' = Ok (c, s'') -> it c = it1 a ++ it2 a c) ->
  reads (mbind x f) it.
Proof.
move=> hx hf he s c s' e; sbind e a s1 => h1; have [a1 a2 a3] := hx _ _ _ h1; have [b1 b2 b3] := hf _ _ _ _ e.
by rewrite (he _ _ _ _ _ h1 e) hashed_cat wire_cat all_cat a3 b3 b1 a1 a2 b2 !catA.
Qed.
Lemma reads_mmap A C (f : A -> R C) (it : C -> seq item) l : (forall a, reads (f a) it) ->
  reads (mmap f l) (fun ys => flatten (map it ys)).
Proof.
move=> hf; elim: l => [|x l IH] s ys s'; first by move=> [<- <-]; rewrite /hashed /wire /= cats0.
move=> e; rewrite /= in e; sbind e y s1 => h1; sbind e zs s2 => h2; case: e => <- <-.
have [a1 a2 a3] := hf _ _ _ _ h1; have [b1 b2 b3] := IH _ _ _ h2.
by rewrite /= hashed_cat wire_cat all_cat a3 b3 b1 a1 a2 b2 !catA.
Qed.
Lemma reads_eq A (x : R A) it it' : (forall a, it a = it' a) -> reads x it -> reads x it'.
Proof. by move=> h hx s a s' /hx; rewrite h. Qed.
Lemma flatten1 (T U : Type) (f : T -> U) l : flatten [seq [:: f x] | x <- l] = map f l.
Proof. by elim: l => //= x l ->. Qed.
Lemma reads_points A (l : seq A) : reads (mmap (fun _ => read_point E) l) (map IPoint).
Proof. move=> s a s' e; have := reads_mmap (fun _ => reads_point) e; by rewrite flatten1. Qed.
Lemma reads_scalars A (l : seq A) : reads (mmap (fun _ => read_scalar E) l) (map IScalar).
Proof. move=> s a s' e; have := reads_mmap (fun _ => reads_scalar) e; by rewrite flatten1. Qed.
Lemma reads_nested A (f : A -> R (seq G)) l : (forall a, reads (f a) (map IPoint)) ->
  reads (mmap f l) (fun ys => map IPoint (flatten ys)).
Proof. move=> h s a s' e; have := reads_mmap h e; by rewrite map_flatten. Qed.
Lemma reads_pair : reads (read_permuted_commitments E) (fun p => map IPoint [:: p.1; p.2]).
Proof.
move=> s p s' e; sbind e a s1 => /(@reads_point _ _ _) [a1 a2 a3]; sbind e b s2 => /(@reads_point _ _ _) [b1 b2 b3]; case: e => <- <-.
by rewrite b1 a1 a2 b2 -[map _ _]/([:: IPoint a] ++ [:: IPoint b]) hashed_cat wire_cat all_cat a3 b3 !catA.
Qed.
Lemma reads_zlook (l : G * G) : reads (let! z := read_point E in mret (l, z)) (fun lz => [:: IPoint lz.2]).
Proof. by move=> s p s' e; sbind e z s1 => /(@reads_point _ _ _) h; case: e => <- <-. Qed.
Lemma squeeze_inv s c s' : r_squeeze E s = Ok (c, s') ->
  [/\ c = e_uniform E (e_blake E (r_abs s ++ hashed [:: IChallenge])), r_abs s' = r_abs s ++ hashed [:: IChallenge] & r_in s' = r_in s].
Proof.
rewrite /r_squeeze => e; sbind e b s1 => h1; have [h2 ->] := mlift_inv e; case: h1 => eb <-.
by split=> //=; move: h2; rewrite -eb /challenge_scalar /challenge_bytes (ok_repr ok) /= => -[<-].
Qed.

(* the evaluations, in the order in which they are read *)
Definition set_evals (v : vset G) : seq F := v_eval v :: v_next_eval v :: seq_of_opt (v_last_eval v).
Lemma reads_sets cs : reads (perm_read_evals E cs) (fun vs => map IScalar (flatten (map set_evals vs))).
Proof.
elim: cs => [|c cs IH] /=; first exact: reads_ret.
move=> s vs s' e; sbind e e1 s1 => /(@reads_scalar _ _ _) [a1 a2 a3]; sbind e e2 s2 => /(@reads_scalar _ _ _) [b1 b2 b3].
sbind e lev s3 => h3; sbind e sets s4 => /(@IH _ _ _) [d1 d2 d3]; case: e => <- <-.
have [c1 c2 c3] : [/\ r_abs s3 = r_abs s2 ++ hashed (map IScalar (seq_of_opt lev)), r_in s2 = wire (map IScalar (seq_of_opt lev)) ++ r_in s3 &
    all (@good_item F G) (map IScalar (seq_of_opt lev))].
  case: cs h3 {IH d1 d2 d3} => [|c' cs] h3; first by case: h3 => <- <-; rewrite /hashed /wire /= cats0.
  by sbind h3 l s5 => /(@reads_scalar _ _ _); case: h3 => <- <-.
have -> : map IScalar (flatten (map set_evals (VSet c e1 e2 lev :: sets))) =
    [:: IScalar e1] ++ [:: IScalar e2] ++ map IScalar (seq_of_opt lev) ++ map IScalar (flatten (map set_evals sets)) by rewrite /= map_cat.
by rewrite !hashed_cat !wire_cat !all_cat a3 b3 c3 d3 d1 c1 b1 a1 a2 b2 c2 d2 !catA.
Qed.
Definition lk_evals (v : vlookup G) : seq F :=
  [:: vl_product_eval v; vl_product_next_eval v; vl_pinput_eval v; vl_pinput_inv_eval v; vl_ptable_eval v].
Lemma reads_lookup c : reads (lookup_read_evals E c) (fun v => map IScalar (lk_evals v)).
Proof.
move=> s v s' e; sbind e e1 s1 => /(@reads_scalar _ _ _) [a1 a2 a3]; sbind e e2 s2 => /(@reads_scalar _ _ _) [b1 b2 b3].
sbind e e3 s3 => /(@reads_scalar _ _ _) [c1 c2 c3]; sbind e e4 s4 => /(@reads_scalar _ _ _) [d1 d2 d3].
sbind e e5 s5 => /(@reads_scalar _ _ _) [f1 f2 f3]; case: e => <- <-.
rewrite -[map _ _]/([:: IScalar e1] ++ [:: IScalar e2] ++ [:: IScalar e3] ++ [:: IScalar e4] ++ [:: IScalar e5]).
by rewrite !hashed_cat !wire_cat !all_cat a3 b3 c3 d3 f3 f1 d1 c1 b1 a1 a2 b2 c2 d2 f2 !catA.
Qed.
End Reads.

Section Trace.
Variables (F B : fieldType) (G : lmodType F) (E : env B G) (ps : params G).
Hypotheses (ok : env_ok E) (pok : params_ok E ps).
Variables (vk : vkey G) (instances : seq (seq (seq F))).
Notation m := (vk_cs vk).
Notation np := (size instances).
Notation item := (item G).
Notation IPoint := (@IPoint F G).
Notation IScalar := (@IScalar F G).
Notation IChallenge := (@IChallenge F G).
Notation hashed := (@hashed F B G E).
Notation wire := (@wire F B G E).

Lemma common_points_inv (l : seq G) s a s' : mmap (r_common_point E) l s = Ok (a, s') ->
  [/\ r_abs s' = r_abs s ++ hashed (map IPoint l), r_in s' = r_in s & all (fun p => p != 0) l].
Proof.
elim: l s a s' => [|p l IH] s a s' /=; first by move=> [_ <-]; rewrite /hashed /= cats0.
move=> e; sbind e t s1 => /(common_point_inv ok) [a1 a2 a3]; sbind e t2 s2 => /IH [b1 b2 b3]; case: e => _ <-.
by rewrite b1 a1 b2 a2 a3 b3 -[in RHS](cat1s (IPoint p)) hashed_cat catA.
Qed.
Lemma common_nested_inv (l : seq (seq G)) s a s' : mmap (fun cs => mmap (r_common_point E) cs) l s = Ok (a, s') ->
  [/\ r_abs s' = r_abs s ++ hashed (map IPoint (flatten l)), r_in s' = r_in s & all (fun p => p != 0) (flatten l)].
Proof.
elim: l s a s' => [|p l IH] s a s' /=; first by move=> [_ <-]; rewrite /hashed /= cats0.
move=> e; sbind e t s1 => /common_points_inv [a1 a2 a3]; sbind e t2 s2 => /IH [b1 b2 b3]; case: e => _ <-.
by rewrite b1 a1 b2 a2 map_cat hashed_cat all_cat a3 b3 catA.
Qed.
Lemma rmap_inv (A C : Type) (f : A -> res C) l r : rmap f l = Ok r ->
  size r = size l /\ forall x0 y0 i, (i < size l)%N -> f (nth x0 l i) = Ok (nth y0 r i).
Proof.
elim: l r => [|a l IH] r /=; first by move=> [<-].
case e: (f a) => [c||] //=; case: rmap IH => //= r' /(_ _ erefl) [h1 h2] [<-] /=; rewrite h1; split=> // x0 y0 [|i] hi //=.
exact: h2.
Qed.
Lemma resizeE (v : seq F) k : (size v <= k)%N -> resize v k = mkseq (nth 0 v) k.
Proof.
move=> h; apply: (@eq_from_nth _ 0) => [|i]; rewrite L_MoProof.size_resize ?size_mkseq // => hi.
rewrite nth_mkseq // /resize take_oversize // nth_cat; case: ltnP => // h3; by rewrite nth_nseq if_same nth_default.
Qed.
Lemma instance_inv inst : all (fun i : seq (seq F) => size i == num_instance m) instances ->
  rmap (rmap (instance_commitment E ps (vk_domain vk) m)) instances = Ok inst -> instance_commitments E ps vk instances inst.
Proof.
move=> /allP hs /rmap_inv [h1 h2]; have h3 i (hi : (i < np)%N) := rmap_inv (h2 [::] [::] i hi).
have sz i : (i < np)%N -> size (nth [::] instances i) = num_instance m by move=> hi; apply/eqP; exact: hs (mem_nth _ hi).
split; first by split=> // i hi; have [-> _] := h3 i hi; exact: sz.
move=> i c hi hc; have [_ /(_ [::] 0 c)] := h3 i hi; rewrite sz // => /(_ hc); rewrite /instance_commitment /rbind.
rewrite /usable_rows; case: ifP => // hb; case: ifP => // hle; case: ifP => // _.
rewrite resizeE; first by case: commit_lagrange => //= x [->].
by move/negbT: hle; rewrite -leqNgt => hle; apply: leq_trans hle _; exact: leq_subr.
Qed.

Lemma nested_flat (A C D : Type) (f : C -> D) (g : A -> seq C) (l : seq (seq A)) :
  flatten [seq flatten [seq map f (g y) | y <- ys] | ys <- l] = map f (flatten (map g (flatten l))).
Proof. by elim: l => //= ys l ->; rewrite [map g (_ ++ _)]map_cat flatten_cat map_cat [in RHS]map_flatten -map_comp. Qed.
Lemma mmap_map (S A C : Type) (f : A -> M S C) (g : C -> A) l s ys s' : (forall a s y s', f a s = Ok (y, s') -> g y = a) ->
  mmap f l s = Ok (ys, s') -> map g ys = l.
Proof.
move=> h; elim: l s ys s' => [|a l IH] s ys s' /=; first by move=> [<-].
by move=> e; sbind e y s1 => /h ey; sbind e zs s2 => /IH ez; case: e => <- _ /=; rewrite ey ez.
Qed.
Lemma sets_com cs s vs s' : perm_read_evals E cs s = Ok (vs, s') -> map (@v_commitment F G) vs = cs.
Proof.
elim: cs s vs s' => [|c cs IH] s vs s' /=; first by move=> [<-].
move=> e; sbind e e1 s1 => _; sbind e e2 s2 => _; sbind e e3 s3 => _; sbind e zs s4 => /IH ez; case: e => <- _ /=.
by rewrite ez.
Qed.
Lemma lookup_com c s v s' : lookup_read_evals E c s = Ok (v, s') -> (vl_pinput v, vl_ptable v, vl_product v) = c.
Proof.
move=> e; sbind e e1 s1 => _; sbind e e2 s2 => _; sbind e e3 s3 => _; sbind e e4 s4 => _; sbind e e5 s5 => _; case: e => <- _ /=.
by case: c => [[]].
Qed.
Lemma wire_points (l : seq G) : wire (map IPoint l) = flatten (map (e_to_bytes E) l).
Proof. by rewrite /wire -map_comp. Qed.
Lemma wire_scalars (l : seq F) : wire (map IScalar l) = flatten (map (e_repr E) l).
Proof. by rewrite /wire -map_comp. Qed.
Lemma good_points (l : seq G) : all (@good_item F G) (map IPoint l) = all (fun p => p != 0) l.
Proof. by rewrite all_map. Qed.

(* the queries *)
Notation vquery := (vquery B G qkey_eqType).
Lemma get_nth0 (T : Type) (d : T) l i x : get l i = Some x -> x = nth d l i.
Proof. by move=> /(@L_Selectors.get_some _ _ _ _) [hi e]; rewrite -{1}e; exact: set_nth_default. Qed.
Lemma get_nth_in (T : eqType) (l : seq T) i x : get l i = Some x -> x \in l.
Proof. by move=> /(@L_Selectors.get_some _ _ _ _) [hi <-]; exact: mem_nth. Qed.
Lemma In_map (A C : Type) (f : A -> C) l q : List.In q (map f l) -> exists a, f a = q /\ List.In a l.
Proof. by elim: l => //= a l IH [<-|/IH [b [h1 h2]]]; [exists a; split=> //; left|exists b; split=> //; right]. Qed.
Lemma map_In (A C : Type) (f : A -> C) l a : List.In a l -> List.In (f a) (map f l).
Proof. by elim: l => //= b l IH [->|/IH h]; [left|right]. Qed.
Lemma In_cat (T : Type) (a b : seq T) q : List.In q (a ++ b) -> List.In q a \/ List.In q b.
Proof. by elim: a => [|x a IH] /=; [right|move=> [->|/IH [h|h]]; auto]. Qed.
Lemma In_iota k a b : List.In k (iota a b) <-> (a <= k < a + b)%N.
Proof.
rewrite -mem_iota; elim: (iota a b) => //= x l IH; rewrite inE; split.
  by move=> [->|/IH ->]; rewrite ?eqxx ?orbT.
by move=> /orP [/eqP ->|/IH]; [left|right].
Qed.
Lemma In_mapi (A C : Type) (f : nat -> A -> C) l q : List.In q (mapi f l) -> exists j z, get l j = Some z /\ f j z = q.
Proof.
case: l => [//|z0 l]; rewrite (mapiE z0) => h; have [j [e hin]] := In_map h.
have /andP [_ hj] := proj1 (In_iota _ _ _) hin.
by exists j, (nth z0 (z0 :: l) j); rewrite (getE z0).
Qed.
Lemma In_seq_mapi (A C : Type) (f : nat -> A -> option C) l r q : M_Assigned.sequence (mapi f l) = Some r -> List.In q r ->
  exists j z, get l j = Some z /\ f j z = Some q.
Proof. by move=> e h; have := map_In Some h; rewrite -(sequence_inv e); exact: In_mapi. Qed.
Lemma In_flatten (T : Type) (l : seq (seq T)) q : List.In q (flatten l) -> exists2 k, List.In k l & List.In q k.
Proof.
elim: l => //= k l IH h; case: (In_cat h) => [h'|/IH [k' h1 h2]]; first by exists k => //; left.
by exists k' => //; right.
Qed.
Lemma get_zip (A C : Type) (a : seq A) (c : seq C) i z : get (zip a c) i = Some z -> get a i = Some z.1 /\ get c i = Some z.2.
Proof.
elim: a c i => [|x a IH] [|y c] [|i] //=; first by rewrite /get /= => -[<-].
exact: IH.
Qed.

Definition opens kind i (comms : seq G) (evals : seq F) (q : vquery) : Prop :=
  exists2 c, q_key q = (kind, (i, c))%N & q_data q = CCommitment B (nth 0 comms c) /\ q_eval q \in evals.
Lemma column_right x kind i comms evals qs r q : column_queries B (vk_domain vk) x kind i comms evals qs = Some r -> List.In q r ->
  opens kind i comms evals q.
Proof.
move=> h1 h2; have [j [[c rot] [_ e]]] := In_seq_mapi h1 h2; move: e; case ec: (get comms _) => [cm|] //=; case ee: (get evals _) => [ev|] //= [<-].
by exists c => //=; split; [rewrite (get_nth0 0 ec)|exact: get_nth_in ee].
Qed.
Lemma In_rev (T : Type) (l : seq T) q : List.In q (rev l) -> List.In q l.
Proof.
elim: l => //= a l IH; rewrite rev_cons -cats1 => h; case: (In_cat h) => [/IH h'|/= [->|//]]; by [right|left].
Qed.
Lemma In_zip_iota (T : Type) (l : seq T) a t s : List.In (t, s) (zip (iota a (size l)) l) -> (a <= t)%N /\ get l (t - a) = Some s.
Proof.
elim: l a => //= x l IH a [[<- <-]|h]; first by rewrite subnn.
have [h1 h2] := IH _ h.
split; first exact: ltnW.
by rewrite -h2 -{1}(subnKC h1) addSn -addnS addnC addnK.
Qed.
Lemma perm_right bf i x (sets : seq (vset G)) r q : perm_queries B (vk_domain vk) bf i x sets = Some r -> List.In q r ->
  opens 2%N i (map (@v_commitment F G) sets) (flatten (map (@set_evals F G) sets)) q.
Proof.
rewrite /perm_queries; set isets := zip _ _.
have hz iset : List.In iset isets -> get sets iset.1 = Some iset.2.
  by case: iset => t st h; have [_] := In_zip_iota h; rewrite subn0.
have hd iset p e : List.In iset isets -> e \in set_evals iset.2 ->
    opens 2%N i (map (@v_commitment F G) sets) (flatten (map (@set_evals F G) sets))
      (Query (2, (i, iset.1))%N (CCommitment B (v_commitment iset.2)) p e).
  move=> /hz h he; have [h1 h2] := L_Selectors.get_some h; exists iset.1 => //=; split.
    by rewrite (nth_map iset.2) // h2.
  apply/flattenP; exists (set_evals iset.2) => //; apply/(nthP [::]); exists iset.1; rewrite ?size_map //.
  by rewrite (nth_map iset.2) // h2.
case es: M_Assigned.sequence => [lasts|] //= [<-] h; case: (In_cat h) => {}h.
  have [k hk] := In_flatten h; have [iset [<- hin]] := In_map hk; move=> /= [<-|[<-|//]]; apply: hd => //; by rewrite /set_evals !inE eqxx ?orbT.
have := map_In Some h; rewrite -(sequence_inv es) => {}h; have [iset [e hin]] := In_map h; move: e.
case el: v_last_eval => [ev|] //= [<-]; apply: hd; last by rewrite /set_evals el /= !inE eqxx !orbT.
by apply: In_rev; case: (rev isets) hin => //= a l; right.
Qed.
Lemma lookup_right i j x (v : vlookup G) q : List.In q (lookup_queries B (vk_domain vk) i j x v) ->
  [\/ [/\ q_key q = (3, (i, j))%N, q_data q = CCommitment B (vl_product v) & q_eval q \in lk_evals v],
      [/\ q_key q = (4, (i, j))%N, q_data q = CCommitment B (vl_pinput v) & q_eval q \in lk_evals v] |
      [/\ q_key q = (5, (i, j))%N, q_data q = CCommitment B (vl_ptable v) & q_eval q \in lk_evals v]].
Proof.
rewrite /lookup_queries /=; case; [|case; [|case; [|case; [|case=> //]]]] => <-;
  [constructor 1|constructor 2|constructor 3|constructor 2|constructor 1]; by rewrite /= /lk_evals !inE eqxx ?orbT.
Qed.

Lemma h_stands (comms : seq G) xn mm : h_commitment_msm E comms xn = Some mm ->
  stands_for E ps mm (\sum_(j < size comms) xn ^+ j *: comms`_j).
Proof.
rewrite /h_commitment_msm foldl_rev.
have [ops [o1 o2 o3]] : exists ops, [/\ all (op_ok (p_n ps)) ops,
    foldr (fun c acc => obind (fun acc : msm F B => append_term E (msm_scale acc xn) 1 c) acc) (Some msm_new) comms =
      ops_run E ps msm_new ops &
    ops_value ps ops = \sum_(i < size comms) xn ^+ i *: comms`_i].
  elim: (comms) => [|c l [ops [o1 o2 o3]]]; first by exists [::]; rewrite big_ord0.
  exists (ops ++ [:: OScale G xn; OTerm 1 c]); split; first by rewrite all_cat o1.
    rewrite /= o2; elim: (ops) (@msm_new F B) => [|o ops' IH] m0 /=; first by case: append_term.
    by case: op_run => //= m1; rewrite IH.
  rewrite /ops_value foldl_cat -/(ops_value ps ops) o3 /= scale1r big_ord_recl expr0 scale1r addrC; congr (_ + _).
  by rewrite scaler_sumr; apply: eq_bigr => i _; rewrite lift0 scalerA -exprS.
by rewrite o2 => e; exists ops.
Qed.
Lemma nth_map_nil (A C : Type) (f : seq A -> seq C) l i : f [::] = [::] -> nth [::] (map f l) i = f (nth [::] l i).
Proof.
by move=> h; case: (ltnP i (size l)) => hi; [rewrite (nth_map [::])|rewrite !nth_default ?size_map].
Qed.
Lemma flatten_nested (A C : Type) (g : A -> seq C) (l : seq (seq A)) :
  flatten (map g (flatten l)) = flatten (map (fun ys => flatten (map g ys)) l).
Proof. by elim: l => //= ys l <-; rewrite map_cat flatten_cat. Qed.

Theorem C53_transcript : forall bytes vt s', verify_proof_trace E ps vk instances (Rst [::] bytes) = Ok (vt, s') ->
  exists inst ms, transcript_of E ps vk instances bytes vt s' inst ms.
Proof.
move=> bytes vt s'.
rewrite /verify_proof_trace; case: ifP => // /negbFE hni e.
sbind e ic s1 => h1; sbind e t1 s2 => h2; sbind e t2 s3 => h3; sbind e ac s4 => h4; sbind e theta s5 => h5.
sbind e lp s6 => h6; sbind e beta s7 => h7; sbind e gamma s8 => h8; sbind e pc s9 => h9; sbind e lc s10 => h10.
sbind e rc s11 => h11; sbind e y s12 => h12; sbind e hc s13 => h13; sbind e x s14 => h14.
sbind e ie s15 => h15; sbind e ae s16 => h16; sbind e fe s17 => h17; sbind e re s18 => h18; sbind e sgs s19 => h19.
sbind e sets s20 => h20; sbind e lks s21 => h21.
cbv zeta in e.
sbind e ls s22 => /(@L_PlonkTrace.unwrap_inv _ _ _ _ _ _) [h22 e22]; case: ls h22 e => [[l_last l_blind] l_0] h22 e.
sbind e exprs s23 => /(@L_PlonkTrace.unwrap_inv _ _ _ _ _ _) [h23 e23]; sbind e van s24 => /(@L_PlonkTrace.unwrap_inv _ _ _ _ _ _) [h24 e24].
sbind e qs s25 => /(@L_PlonkTrace.unwrap_inv _ _ _ _ _ _) [h25 e25]; sbind e fq s26 => /(@L_PlonkTrace.unwrap_inv _ _ _ _ _ _) [h26 e26].
case: e => <- <- {vt s'}; rewrite e26 e25 e24 e23 e22 {s22 s23 s24 s25 s26 e22 e23 e24 e25 e26}.
have [hic e1] := mlift_inv h1; rewrite {s1 h1}e1 in h2; case: h2 => _ e2; rewrite -{s2}e2 in h3.
have [a3 b3 c3] := common_nested_inv h3; rewrite /= in a3 b3.
have [a4 b4 c4] := reads_nested (fun _ => @reads_points _ _ _ E ok _ (iota 0 (num_advice m))) h4.
have [d5 a5 b5] := squeeze_inv ok h5.
have [a6 b6 c6] := reads_mmap (fun _ => @reads_mmap _ _ _ E _ _ _ _ _ (fun _ => @reads_pair _ _ _ E ok)) h6.
have [d7 a7 b7] := squeeze_inv ok h7.
have [d8 a8 b8] := squeeze_inv ok h8.
have [a9 b9 c9] : [/\ r_abs s9 = r_abs s8 ++ hashed (map IPoint (flatten pc)), r_in s8 = wire (map IPoint (flatten pc)) ++ r_in s9 &
    all (@good_item F G) (map IPoint (flatten pc))].
  apply: (reads_nested _ h9) => _ st a st'; rewrite /perm_read_commitments; case: ifP => // _; exact: reads_points.
have [a10 b10 c10] := reads_mmap (fun ls => @reads_mmap _ _ _ E _ _ _ _ ls (fun l => @reads_zlook _ _ _ E ok l)) h10.
have [a11 b11 c11] := reads_point ok h11.
have [d12 a12 b12] := squeeze_inv ok h12.
have [a13 b13 c13] := reads_points ok h13.
have [d14 a14 b14] := squeeze_inv ok h14.
have [a15 b15 _] := reads_mmap (fun _ => @reads_scalars _ _ _ E ok _ (iota 0 (size (instance_queries m)))) h15.
have [a16 b16 _] := reads_mmap (fun _ => @reads_scalars _ _ _ E ok _ (iota 0 (size (advice_queries m)))) h16.
have [a17 b17 _] := reads_scalars ok h17.
have [a18 b18 _] := reads_scalar ok h18.
have [a19 b19 _] := reads_scalars ok h19.
have [a20 b20 _] := reads_mmap (@reads_sets _ _ _ E ok) h20.
have [a21 b21 _] := reads_mmap (fun ls => @reads_mmap _ _ _ E _ _ _ _ ls (@reads_lookup _ _ _ E ok)) h21.
rewrite -!map_flatten in a15 b15 a16 b16.
rewrite !nested_flat in a6 b6 c6 a21 b21.
have nf20 : flatten [seq map IScalar (flatten (map (@set_evals F G) vs)) | vs <- sets] = map IScalar (flatten (map (@set_evals F G) (flatten sets))).
  by elim: (sets) => //= vs l ->; rewrite [map _ (_ ++ _)]map_cat flatten_cat map_cat.
have nf10 : flatten [seq flatten [seq [:: IPoint lz.2] | lz <- ys] | ys <- lc] = map IPoint (flatten (map (map snd) lc)).
  by elim: (lc) => //= ys l ->; rewrite map_cat -map_comp -(flatten1 (IPoint \o snd)).
rewrite nf20 in a20 b20; rewrite nf10 in a10 b10 c10.
set evals := flatten ie ++ flatten ae ++ fe ++ [:: re] ++ sgs ++ flatten (map (@set_evals F G) (flatten sets)) ++
  flatten (map (@lk_evals F G) (flatten lks)).
pose ms := Messages ac lp pc (map (map snd) lc) rc hc evals.
have hcons (i : item) l : hashed (i :: l) = hashed [:: i] ++ hashed l by rewrite -hashed_cat.
have S4 : r_abs s4 = hashed (theta_input (vk_transcript_repr vk) ic ms).
  have hs1 : hashed [:: IScalar (vk_transcript_repr vk)] = PREFIX_SCALAR :: e_repr E (vk_transcript_repr vk) by rewrite /hashed /= cats0.
  by rewrite a4 a3 /theta_input hcons !hashed_cat hs1 /= !catA.
have S6 : r_abs s6 = hashed (beta_input (vk_transcript_repr vk) ic ms).
  by rewrite a6 a5 S4 /beta_input hashed_cat (hcons _ (map _ _)) !catA.
have S7 : r_abs s7 = hashed (gamma_input (vk_transcript_repr vk) ic ms) by rewrite a7 S6 /gamma_input hashed_cat.
have S11 : r_abs s11 = hashed (y_input (vk_transcript_repr vk) ic ms).
  by rewrite a11 a10 a9 a8 S7 /y_input hashed_cat (hcons _ (map _ _)) !map_cat !hashed_cat !catA.
have S13 : r_abs s13 = hashed (x_input (vk_transcript_repr vk) ic ms).
  by rewrite a13 a12 S11 /x_input hashed_cat (hcons _ (map _ _)) !catA.
have elp : map (map fst) lc = lp.
  by apply: mmap_map h10 => ls st ys st'; apply: mmap_map => l st1 yy st2 ez; sbind ez z st3 => _; case: ez => <-.
have epc : map (map (@v_commitment F G)) sets = pc by apply: mmap_map h20 => cs st vs st'; exact: sets_com.
have elc : map (map (fun v : vlookup G => (vl_pinput v, vl_ptable v, vl_product v))) lks = lc.
  by apply: mmap_map h21 => ls st ys st'; apply: mmap_map => l st1 yy st2; exact: lookup_com.
exists ic, ms; have hchal l : challenge E l = e_uniform E (e_blake E (hashed l ++ hashed [:: IChallenge])) by rewrite /challenge hashed_cat.
have hin := instance_inv hni hic.
have sic : size ic = np by case: hin => -[].
have iot (T U : Type) (f : R U) (y0 : U) (l : seq T) st ys st' : mmap (fun _ => f) l st = Ok (ys, st') -> size ys = size l.
  by move=> em; have [] := mmap_inv (Q := fun _ => True) y0 em (fun _ _ _ _ _ => I).
split=> //=.
- split=> /=.
  + by have [] := mmap_inv (Q := fun r => size r = num_advice m) [::] h4; [by move=> _ st r st' /(iot _ _ _ 0); rewrite size_iota|rewrite size_iota sic].
  + by have [] := mmap_inv (Q := fun r => size r = size (lookups m)) [::] h6; [by move=> _ st r st' /(iot _ _ _ (0, 0))|rewrite size_iota sic].
  + have [] := mmap_inv (Q := fun r => size r = size (chunks (vk_cs_degree vk - 2) (permutation m))) [::] h9; last by rewrite size_iota sic.
    by move=> _ st r st'; rewrite /perm_read_commitments; case: ifP => // _ /(iot _ _ _ 0).
  + have [] := mmap_inv (Q := fun r => size r = size (lookups m)) [::] h6; first by move=> _ st r st' /(iot _ _ _ (0, 0)).
    rewrite size_iota sic -elp size_map => slc hlc; split; first by rewrite size_map.
    move=> i hi; have := hlc i hi; rewrite !(nth_map [::]) ?slc //; by rewrite !size_map.
  by rewrite (iot _ _ _ 0 _ _ _ _ h13) size_iota.
- by rewrite d5 S4 hchal.
- by rewrite d7 S6 hchal.
- by rewrite d8 S7 hchal.
- by rewrite d12 S11 hchal.
- by rewrite d14 S13 hchal.
- rewrite a21 a20 a19 a18 a17 a16 a15 a14 S13 /opening_input hashed_cat (hcons _ (map _ _)) -[ms_evals ms]/evals /evals !map_cat !hashed_cat.
  by rewrite -!catA.
- rewrite -b3 b4 -b5 b6 -b7 -b8 b9 b10 b11 -b12 b13 -b14 b15 b16 b17 b18 b19 b20 b21 /proof_bytes /=.
  by rewrite !map_cat !flatten_cat /= -!wire_points -!wire_scalars -!catA.
- have sub (l : seq F) e l1 l2 : evals = l1 ++ l ++ l2 -> e \in l -> e \in evals by move=> ->; rewrite !mem_cat => ->; rewrite orbT.
  have main kind i comms evs q : opens kind i comms evs q -> {subset evs <= evals} ->
      (forall c, nth 0 comms c = commitment_for ps vk ic ms x (kind, (i, c))%N) -> right_query E ps vk ic ms x q.
    by move=> [c ek [ed ee]] hs hcm; split; [rewrite ek ed /= hcm|right; exact: hs].
  have row (T : eqType) (ls : seq (seq T)) i : {subset nth [::] ls i <= flatten ls}.
    move=> z hz; apply/flattenP; exists (nth [::] ls i) => //; apply: mem_nth; rewrite ltnNge; apply/negP => h.
    by rewrite nth_default in hz.
  move=> q hq; case: (In_cat hq) => {}hq; last case: (In_cat hq) => {}hq; last case: (In_cat hq) => {}hq.
  + have [k hk hqk] := In_flatten hq.
    have [i [z [gz ez]]] := In_seq_mapi h25 hk; case: z gz ez => [[[[[zic zie] zac] zae] zset] zlk] gz.
    have [/(@get_zip _ _ _ _ _ _) [/(@get_zip _ _ _ _ _ _) [/(@get_zip _ _ _ _ _ _) [/(@get_zip _ _ _ _ _ _) [g1 g2] g3] g4] g5] g6] := get_zip gz.
    rewrite /= in g1 g2 g3 g4 g5 g6; have {}g1 := get_nth0 [::] g1; have {}g2 := get_nth0 [::] g2.
    have {}g3 := get_nth0 [::] g3; have {}g4 := get_nth0 [::] g4.
    case e1: (column_queries _ _ _ 0) => [iq|] //=; case e2: (column_queries _ _ _ 1) => [aq|] //=; case e3: perm_queries => [pq|] //= [ek].
    rewrite -{k hk}ek in hqk; case: (In_cat hqk) => {hq}hqk; last case: (In_cat hqk) => {}hqk; last case: (In_cat hqk) => {}hqk.
    * apply: (main _ _ _ _ _ (column_right e1 hqk)) => [e|c]; last by rewrite g1.
      by rewrite g2 => /row; apply: (sub _ _ [::]).
    * apply: (main _ _ _ _ _ (column_right e2 hqk)) => [e|c]; last by rewrite g3.
      by rewrite g4 => /row; apply: (sub _ _ (flatten ie)).
    * have {}g5 := get_nth0 [::] g5.
      apply: (main _ _ _ _ _ (perm_right e3 hqk)) => [e|c]; last by rewrite /= -epc nth_map_nil // -g5.
      move=> he; apply: (sub _ _ (flatten ie ++ flatten ae ++ fe ++ [:: re] ++ sgs)); first by rewrite -!catA.
      by rewrite flatten_nested; apply: (row _ _ i); rewrite nth_map_nil // -g5.
    have {}g6 := get_nth0 [::] g6.
    have [k hk hqk'] := In_flatten hqk; have [j [v [gv ek]]] := In_mapi hk; rewrite -{k hk}ek in hqk'.
    have [hj ev] := L_Selectors.get_some gv.
    have he e : e \in lk_evals v -> e \in evals.
      move=> hv; apply: (sub (flatten (map (@lk_evals F G) (flatten lks))) _
        (flatten ie ++ flatten ae ++ fe ++ [:: re] ++ sgs ++ flatten (map (@set_evals F G) (flatten sets))) [::]); first by rewrite /evals -!catA cats0.
      rewrite flatten_nested; apply: (row _ _ i); rewrite nth_map_nil // -g6; apply: (row _ _ j).
      by rewrite (nth_map v) // ev.
    have zl : nth 0 (nth [::] (map (map snd) lc) i) j = vl_product v.
      by rewrite nth_map_nil // -elc nth_map_nil // -g6 -map_comp (nth_map v) // ev.
    have pl : nth (0, 0) (nth [::] lp i) j = (vl_pinput v, vl_ptable v).
      by rewrite -elp nth_map_nil // -elc nth_map_nil // -g6 -map_comp (nth_map v) // ev.
    by case: (lookup_right hqk') => -[ek ed ee]; (split; last by right; exact: he); rewrite ek ed /= ?zl ?pl.
  + apply: (main _ _ _ _ _ (column_right h26 hq)) => [e|c] //.
    apply: (sub _ _ (flatten ie ++ flatten ae)); by rewrite -!catA.
  + have [j [[cm ev] [/(@get_zip _ _ _ _ _ _) [g1 g2] <-]]] := In_mapi hq; rewrite /= in g1 g2.
    split=> /=; first exact: get_nth0 g1.
    right; have := get_nth_in g2; apply: (sub _ _ (flatten ie ++ flatten ae ++ fe ++ [:: re])).
    by rewrite -!catA.
  have := h24; rewrite /vanishing_verify; case eh: expected_h_eval => [h|] //=; case em: h_commitment_msm => [mm|] //= [evan].
  move: hq; rewrite -evan /=; case; last case=> //.
    by move=> <-; split; [exact: h_stands em|left].
  move=> <-; split=> //=; right; apply: (sub [:: re] _ (flatten ie ++ flatten ae ++ fe)); last by rewrite inE.
  by rewrite -!catA.
rewrite !all_cat c3 -!good_points c4 c6 c9 c10 /=.
by move: c11 c13; rewrite /= andbT good_points => -> ->.
Qed.
End Trace.

(* Equal hash inputs mean equal keys' digests, public inputs' commitments and messages *)
Section Binding.
Variables (F B : fieldType) (G : lmodType F) (E : env B G) (ps : params G).
Hypothesis ok : env_ok E.
Notation item := (item G).
Notation IPoint := (@IPoint F G).
Notation IScalar := (@IScalar F G).
Notation IChallenge := (@IChallenge F G).
Notation hashed := (@hashed F B G E).

Definition is_challenge (i : item) : bool := if i is P_Transcript.IChallenge then true else false.
Lemma split_last (a a' b b' : seq item) : all (fun i => ~~ is_challenge i) b -> all (fun i => ~~ is_challenge i) b' ->
  a ++ IChallenge :: b = a' ++ IChallenge :: b' -> a = a' /\ b = b'.
Proof.
elim: a a' => [|x a IH] [|x' a'] /= hb hb'.
- by case.
- by case=> _ e; rewrite e all_cat /= andbF in hb.
- by case=> _ e; rewrite -e all_cat /= andbF in hb'.
by move=> [-> /IH [] // -> ->].
Qed.
Lemma no_challenge (l : seq G) : all (fun i => ~~ is_challenge i) (map IPoint l).
Proof. by rewrite all_map; apply/allP. Qed.
Lemma no_challenge' (l : seq F) : all (fun i => ~~ is_challenge i) (map IScalar l).
Proof. by rewrite all_map; apply/allP. Qed.
Lemma points_inj (l l' : seq G) : map IPoint l = map IPoint l' -> l = l'.
Proof. by apply: inj_map => p q []. Qed.
Lemma scalars_inj (l l' : seq F) : map IScalar l = map IScalar l' -> l = l'.
Proof. by apply: inj_map => p q []. Qed.
Lemma rectangle_inj (T : Type) r c (a b : seq (seq T)) : rectangle r c a -> rectangle r c b -> flatten a = flatten b -> a = b.
Proof.
elim: r a b => [|r IH] [|x a] [|y b] [sa ha] [sb hb] //= e; case: sa sb => sa [sb].
have [e1 e2] : x = y /\ flatten a = flatten b.
  have sxy : size x = size y by have := ha 0%N isT; have := hb 0%N isT => /= -> ->.
  by split; [have := congr1 (take (size x)) e|have := congr1 (drop (size x)) e];
    rewrite ?take_size_cat ?drop_size_cat // sxy ?take_size_cat ?drop_size_cat.
by rewrite e1 (IH a b) //; split=> // i hi; [exact: (ha i.+1)|exact: (hb i.+1)].
Qed.
Lemma rectangle_size (T : Type) r c (a : seq (seq T)) : rectangle r c a -> size (flatten a) = (r * c)%N.
Proof.
elim: r a => [|r IH] [|x a] [sa ha] //=; case: sa => sa; rewrite size_cat (IH a) ?(ha 0%N) //.
by split=> // i hi; exact: (ha i.+1).
Qed.

Theorem C53_key_binds : forall (d1 d2 : F) inst1 inst2 ms1 ms2,
  all (fun p => p != 0) (flatten inst1 ++ flatten (ms_advice ms1)) -> all (fun p => p != 0) (flatten inst2 ++ flatten (ms_advice ms2)) ->
  hashed (theta_input d1 inst1 ms1) = hashed (theta_input d2 inst2 ms2) ->
  d1 = d2 /\ flatten inst1 ++ flatten (ms_advice ms1) = flatten inst2 ++ flatten (ms_advice ms2).
Proof.
move=> d1 d2 i1 i2 m1 m2 g1 g2 h; rewrite -!good_points in g1 g2; have := flatten_inj ok _ _ h; rewrite /theta_input /= -!map_cat g1 g2.
by move=> /(_ isT isT) [-> /points_inj].
Qed.

Variable vk : vkey G.
Notation m := (vk_cs vk).
Notation dg := (vk_transcript_repr vk).
Hypothesis columns : (0 < num_instance m + num_advice m)%N.
Variables (instances1 instances2 : seq (seq (seq F))) (bytes1 bytes2 : seq nat) (vt1 vt2 : vtrace B G) (s1 s2 : rst).
Variables (inst1 inst2 : seq (seq G)) (ms1 ms2 : messages G).
Hypothesis t1 : transcript_of E ps vk instances1 bytes1 vt1 s1 inst1 ms1.
Hypothesis t2 : transcript_of E ps vk instances2 bytes2 vt2 s2 inst2 ms2.

Lemma theta_binds : theta_input dg inst1 ms1 = theta_input dg inst2 ms2 ->
  [/\ inst1 = inst2, ms_advice ms1 = ms_advice ms2 & size instances1 = size instances2].
Proof.
rewrite /theta_input -!map_cat => -[/points_inj e].
have [r1 _] := to_inst t1; have [r2 _] := to_inst t2; have [q1 _ _ _ _] := to_sizes t1; have [q2 _ _ _ _] := to_sizes t2.
have es : size instances1 = size instances2.
  have := congr1 size e; rewrite !size_cat (rectangle_size r1) (rectangle_size r2) (rectangle_size q1) (rectangle_size q2) -!mulnDr.
  by move/eqP; rewrite eqn_pmul2r // => /eqP.
have [e1 e2] : flatten inst1 = flatten inst2 /\ flatten (ms_advice ms1) = flatten (ms_advice ms2).
  have sz : size (flatten inst1) = size (flatten inst2) by rewrite (rectangle_size r1) (rectangle_size r2) es.
  by split; [have := congr1 (take (size (flatten inst1))) e|have := congr1 (drop (size (flatten inst1))) e];
    rewrite ?take_size_cat ?drop_size_cat // sz ?take_size_cat ?drop_size_cat.
rewrite es in r1 q1; split=> //; [exact: rectangle_inj r1 r2 e1|exact: rectangle_inj q1 q2 e2].
Qed.
Lemma x_binds : x_input dg inst1 ms1 = x_input dg inst2 ms2 ->
  [/\ inst1 = inst2, ms_advice ms1 = ms_advice ms2, ms_permuted ms1 = ms_permuted ms2 & 
   [/\ ms_zperm ms1 = ms_zperm ms2, ms_zlook ms1 = ms_zlook ms2, ms_random ms1 = ms_random ms2 & ms_pieces ms1 = ms_pieces ms2]].
Proof.
move=> e0; have [e1 ep] := split_last (no_challenge _) (no_challenge _) e0; have [e ez] := split_last (no_challenge _) (no_challenge _) e1.
have {e} [e ep'] : theta_input dg inst1 ms1 = theta_input dg inst2 ms2 /\
    map IPoint (flatten [seq [:: p.1; p.2] | p <- flatten (ms_permuted ms1)]) = map IPoint (flatten [seq [:: p.1; p.2] | p <- flatten (ms_permuted ms2)]).
  have [e2 _] := split_last (b := [::]) (b' := [::]) isT isT e; exact: split_last (no_challenge _) (no_challenge _) e2.
have [e1' e2 es] := theta_binds e.
have [_ p1 z1 l1 h1] := to_sizes t1; have [_ p2 z2 l2 h2] := to_sizes t2; rewrite es in p1 z1 l1.
have eq2 : flatten (ms_permuted ms1) = flatten (ms_permuted ms2).
  move: ep' => /points_inj; elim: (flatten (ms_permuted ms1)) (flatten (ms_permuted ms2)) => [|[a b] l IH] [|[a' b'] l'] //=.
  by move=> [-> -> /IH ->].
move: ez => /points_inj ez.
have [e3 ez'] : flatten (ms_zperm ms1) = flatten (ms_zperm ms2) /\
    flatten (ms_zlook ms1) ++ [:: ms_random ms1] = flatten (ms_zlook ms2) ++ [:: ms_random ms2].
  have sz : size (flatten (ms_zperm ms1)) = size (flatten (ms_zperm ms2)) by rewrite (rectangle_size z1) (rectangle_size z2).
  by split; [have := congr1 (take (size (flatten (ms_zperm ms1)))) ez|have := congr1 (drop (size (flatten (ms_zperm ms1)))) ez];
    rewrite ?take_size_cat ?drop_size_cat // sz ?take_size_cat ?drop_size_cat.
have [e4 e5] : flatten (ms_zlook ms1) = flatten (ms_zlook ms2) /\ ms_random ms1 = ms_random ms2.
  by move: ez'; rewrite !cats1 => /rcons_inj [].
split=> //; first exact: rectangle_inj p1 p2 eq2.
by split=> //; [exact: rectangle_inj z1 z2 e3|exact: rectangle_inj l1 l2 e4|exact: points_inj].
Qed.

Lemma good_inputs instances bytes vt s inst (ms : messages G) : transcript_of E ps vk instances bytes vt s inst ms ->
  [/\ all (@good_item F G) (theta_input dg inst ms), all (@good_item F G) (x_input dg inst ms) & all (@good_item F G) (opening_input dg inst ms)].
Proof.
move=> t; have := to_points t; rewrite !all_cat -!good_points -(cat1s (ms_random ms)) map_cat all_cat.
move=> /and5P [h1 h2 h3 h4 /and3P [h5 h6 h7]]; rewrite /= andbT in h6.
have hs : all (@good_item F G) (map IScalar (ms_evals ms)) by rewrite all_map; apply/allP.
by rewrite /opening_input /x_input /y_input /gamma_input /beta_input /theta_input /=; split;
  rewrite !(all_cat, map_cat) /= ?all_cat /= ?h1 ?h2 ?h3 ?h4 ?h5 ?h6 ?h7 ?hs.
Qed.

Theorem C53_binding :
  [/\ hashed (theta_input dg inst1 ms1) = hashed (theta_input dg inst2 ms2) ->
        inst1 = inst2 /\ ms_advice ms1 = ms_advice ms2,
      hashed (x_input dg inst1 ms1) = hashed (x_input dg inst2 ms2) ->
        inst1 = inst2 /\ exists evals, ms2 = Messages (ms_advice ms1) (ms_permuted ms1) (ms_zperm ms1) (ms_zlook ms1)
          (ms_random ms1) (ms_pieces ms1) evals &
      r_abs s1 = r_abs s2 -> inst1 = inst2 /\ ms1 = ms2].
Proof.
have [g1 g2 g3] := good_inputs t1; have [g1' g2' g3'] := good_inputs t2.
have hx : x_input dg inst1 ms1 = x_input dg inst2 ms2 -> inst1 = inst2 /\ exists evals, ms2 = Messages (ms_advice ms1) (ms_permuted ms1) (ms_zperm ms1) (ms_zlook ms1)
          (ms_random ms1) (ms_pieces ms1) evals.
  by move=> /x_binds [-> -> -> [-> -> -> ->]]; split=> //; exists (ms_evals ms2); case: (ms2).
split.
- by move=> h; have [-> ->] := theta_binds (flatten_inj ok g1 g1' h).
- by move=> h; exact: hx (flatten_inj ok g2 g2' h).
rewrite (to_state t1) (to_state t2) => h; have := flatten_inj ok g3 g3' h.
move=> h0; have [/hx [-> [ev e2]] /scalars_inj e] := split_last (no_challenge' _) (no_challenge' _) h0.
by split=> //; move: e; rewrite e2 /= => <-; case: (ms1).
Qed.
End Binding.
Print Assumptions C53_transcript.
Print Assumptions C53_binding.
Print Assumptions C53_key_binds.
(* A run of verify_proof that gets past this stage: prove97 in Ex_Prove, where the verdict is Ok. *)
