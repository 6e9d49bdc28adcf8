(* C18 (reader replays writer) and C19 (absorption is unambiguous). *)
Set Warnings "-notation-overridden,-ambiguous-paths".
From mathcomp Require Import all_ssreflect all_algebra.
From Verif Require Import Util M_Multiexp P_Multiexp M_Env M_Transcript Ex_Env.
Import GRing.Theory.
Set Implicit Arguments.
Unset Strict Implicit.
Local Open Scope ring_scope.

(* The prover's calls, the verifier's matching calls, and what either side observes. *)
Inductive wcall (F : fieldType) (G : lmodType F) : Type :=
  | WPoint of G | WScalar of F | WCommonPoint of G | WCommonScalar of F | WSqueeze.
Inductive rcall (F : fieldType) (G : lmodType F) : Type :=
  | RPoint | RScalar | RCommonPoint of G | RCommonScalar of F | RSqueeze.
Inductive event (F : fieldType) (G : lmodType F) : Type :=
  | EvPoint of G | EvScalar of F | EvChallenge of F.
Arguments WSqueeze {F G}. Arguments WScalar {F G}. Arguments WCommonScalar {F G}.
Arguments RPoint {F G}. Arguments RScalar {F G}. Arguments RSqueeze {F G}. Arguments RCommonScalar {F G}.
Arguments EvScalar {F G}. Arguments EvChallenge {F G}.

Definition matching (F : fieldType) (G : lmodType F) (c : wcall G) : rcall G :=
  match c with
  | WPoint _ => RPoint | WScalar _ => RScalar
  | WCommonPoint p => RCommonPoint p | WCommonScalar x => RCommonScalar x | WSqueeze => RSqueeze end.

Section Run.
Variables (F B : fieldType) (G : lmodType F) (E : env B G).

Definition do_write (c : wcall G) : W (event G) :=
  match c with
  | WPoint p => write_point E p ;;; mret (EvPoint p)
  | WScalar x => write_scalar E x ;;; mret (EvScalar x)
  | WCommonPoint p => w_common_point E p ;;; mret (EvPoint p)
  | WCommonScalar x => w_common_scalar E x ;;; mret (EvScalar x)
  | WSqueeze => let! c := w_squeeze E in mret (EvChallenge c)
  end.
Definition do_read (c : rcall G) : R (event G) :=
  match c with
  | RPoint => let! p := read_point E in mret (EvPoint p)
  | RScalar => let! x := read_scalar E in mret (EvScalar x)
  | RCommonPoint p => r_common_point E p ;;; mret (EvPoint p)
  | RCommonScalar x => r_common_scalar E x ;;; mret (EvScalar x)
  | RSqueeze => let! c := r_squeeze E in mret (EvChallenge c)
  end.
Definition is_identity_call (c : wcall G) : bool :=
  match c with WPoint p | WCommonPoint p => p == 0 | _ => false end.

Hypothesis ok : env_ok E.

Lemma absorb_ok st p : (absorb_point E st p).2 = (p != 0).
Proof. by rewrite /absorb_point -(ok_coords0 ok); case: e_coords => [[x y]|]. Qed.

Lemma repr_size x : size (e_repr E x) = 32%N.
Proof. by case: (ok_le_repr ok x). Qed.

Lemma step c s : ~~ is_identity_call c ->
  exists bytes e abs',
    do_write c s = Ok (e, Wst abs' (w_out s ++ bytes) (w_rng s)) /\
    forall rest, do_read (matching c) (Rst (w_abs s) (bytes ++ rest)) = Ok (e, Rst abs' rest).
Proof.
case: s => a o r; case: c => [p|x|p|x|] /= hp.
- have := absorb_ok a p; rewrite hp; case e: (absorb_point E a p) => [st b] /= eb.
  exists (e_to_bytes E p), (EvPoint p), st.
  rewrite /write_point /w_common_point /mbind /= e eb /=; split=> // rest.
  rewrite /read_point /mbind /r_get /= size_cat (ok_bytes_size ok) leq_addr /=.
  rewrite take_size_cat ?(ok_bytes_size ok) // drop_size_cat ?(ok_bytes_size ok) //.
  by rewrite /mlift (ok_bytes ok) /= /r_common_point /= e eb.
- exists (e_repr E x), (EvScalar x), (absorb_scalar E a x); split=> // rest.
  rewrite /= /read_scalar /mbind /r_get /= size_cat repr_size leq_addr /=.
  by rewrite take_size_cat ?repr_size // drop_size_cat ?repr_size // /mlift (ok_repr ok).
- have := absorb_ok a p; rewrite hp; case e: (absorb_point E a p) => [st b] /= eb.
  exists [::], (EvPoint p), st; rewrite cats0 /mbind /w_common_point /= e eb; split=> // rest.
  by rewrite /r_common_point /= e eb.
- by exists [::], (EvScalar x), (absorb_scalar E a x); rewrite cats0.
exists [::], (EvChallenge (e_uniform E (e_blake E (absorb_challenge a)))), (absorb_challenge a).
rewrite cats0 /w_squeeze /r_squeeze /mbind /= /mlift /challenge_scalar /challenge_bytes.
by rewrite (ok_repr ok).
Qed.

(* For every sequence of calls on the writer that never passes the identity: the writer
   succeeds, and a reader over the bytes it appended (followed by anything), making the
   matching calls, observes the same points, scalars and challenges, ends with the same
   hash state and leaves the rest unread. *)
Theorem C18_reader_replays_writer : forall (calls : seq (wcall G)) (s : wst),
  ~~ has is_identity_call calls ->
  exists bytes events s',
    mmap do_write calls s = Ok (events, s') /\ w_out s' = w_out s ++ bytes /\
    size events = size calls /\
    forall rest, mmap do_read [seq matching c | c <- calls] (Rst (w_abs s) (bytes ++ rest)) =
      Ok (events, Rst (w_abs s') rest).
Proof.
elim=> [|c calls IH] s; first by exists [::], [::], s; rewrite cats0.
rewrite [has _ _]/= negb_or => /andP [hc hcs].
have [b1 [e1 [a1 [hw hr]]]] := step s hc.
have [b2 [e2 [s2 [hw2 [ho [hs hr2]]]]]] := IH (Wst a1 (w_out s ++ b1) (w_rng s)) hcs.
exists (b1 ++ b2), (e1 :: e2), s2; split; [|split; [|split]].
- by rewrite /= {1}/mbind hw /= /mbind hw2.
- by rewrite ho catA.
- by rewrite /= hs.
by move=> rest; rewrite /= {1}/mbind -catA hr /= /mbind hr2.
Qed.

(* and the events are the arguments the writer was called with *)
Theorem C18_events : forall (c : wcall G) (s s' : wst) e, do_write c s = Ok (e, s') ->
  match c with
  | WPoint p | WCommonPoint p => e = EvPoint p
  | WScalar x | WCommonScalar x => e = EvScalar x
  | WSqueeze => e = EvChallenge (e_uniform E (e_blake E (w_abs s ++ [:: 0%N]))) end.
Proof.
move=> [p|x|p|x|] s s' e /=; rewrite /mbind.
- rewrite /write_point /mbind /w_common_point; case: absorb_point => st [] //=.
  by case.
- by case.
- by rewrite /w_common_point; case: absorb_point => st [] //= [].
- by case.
by rewrite /w_squeeze /mbind /= /mlift /challenge_scalar /challenge_bytes (ok_repr ok) /= => [[]].
Qed.

(* writing the identity is an error *)
Theorem C18_identity_rejected : forall (s : wst) (t : rst),
  write_point E 0 s = Err EIo /\ w_common_point E 0 s = Err EIo /\ r_common_point E 0 t = Err EIo /\
  forall rest, read_point E (Rst (r_abs t) (e_to_bytes E 0 ++ rest)) = Err EIo.
Proof.
move=> s t; have h st : (absorb_point E st 0).2 = false by rewrite absorb_ok eqxx.
split; [|split; [|split]].
- by rewrite /write_point /mbind /w_common_point; have := h (w_abs s); case: absorb_point => ? [].
- by rewrite /w_common_point; have := h (w_abs s); case: absorb_point => ? [].
- by rewrite /r_common_point; have := h (r_abs t); case: absorb_point => ? [].
move=> rest; rewrite /read_point /mbind /r_get /= size_cat (ok_bytes_size ok) leq_addr /=.
rewrite take_size_cat ?(ok_bytes_size ok) // drop_size_cat ?(ok_bytes_size ok) //.
rewrite /mlift (ok_bytes ok) /= /r_common_point /=.
by have := h (r_abs t); case: absorb_point => ? [].
Qed.

(* a proof that ends too early is an error *)
Theorem C18_truncated_rejected : forall t : rst, (size (r_in t) < 32)%N ->
  read_point E t = Err EIo /\ read_scalar E t = Err EIo.
Proof.
by move=> t h; rewrite /read_point /read_scalar /mbind /r_get leqNgt h.
Qed.

(* C19.  What a call absorbs, as an abstract item *)
Inductive item : Type := IPoint of G | IScalar of F | IChallenge.
Definition item_of (c : wcall G) : item :=
  match c with
  | WPoint p | WCommonPoint p => IPoint p
  | WScalar x | WCommonScalar x => IScalar x
  | WSqueeze => IChallenge
  end.

Definition enc (i : item) : seq nat :=
  match i with
  | IPoint p => if e_coords E p is Some (x, y) then 1%N :: e_brepr E x ++ e_brepr E y else [::]
  | IScalar x => 2%N :: e_repr E x
  | IChallenge => [:: 0%N]
  end.

Lemma do_write_abs c s e s' : do_write c s = Ok (e, s') ->
  w_abs s' = w_abs s ++ enc (item_of c) /\ ~~ is_identity_call c.
Proof.
case: c => [p|x|p|x|] /=; rewrite /mbind.
- rewrite /write_point /mbind /w_common_point -(ok_coords0 ok) /absorb_point /=.
  by case: e_coords => [[x y]|] //= [_ <-] /=; rewrite -!catA.
- by case=> _ <- /=; rewrite /absorb_scalar -catA.
- rewrite /w_common_point -(ok_coords0 ok) /absorb_point /=.
  by case: e_coords => [[x y]|] //= [_ <-] /=; rewrite -!catA.
- by case=> _ <- /=; rewrite /absorb_scalar -catA.
by rewrite /w_squeeze /mbind /= /mlift /challenge_scalar /challenge_bytes (ok_repr ok) /= => [[_ <-]].
Qed.

Lemma cat_inj2 (a b c d : seq nat) : size a = size c -> a ++ b = c ++ d -> a = c /\ b = d.
Proof.
move=> hs h; split.
  by have := congr1 (take (size a)) h; rewrite take_size_cat // hs take_size_cat.
by have := congr1 (drop (size a)) h; rewrite drop_size_cat // hs drop_size_cat.
Qed.

Lemma coords_inj p q : p != 0 -> e_coords E p = e_coords E q -> p = q.
Proof.
rewrite -(ok_coords0 ok); case e: (e_coords E p) => [[x y]|] // _ e'.
have := proj2 (ok_from_xy ok x y p) e; have := proj2 (ok_from_xy ok x y q) (esym e').
by move=> -> [].
Qed.
Definition good_item i := if i is IPoint p then p != 0 else true.

Lemma enc_inj i j a b : good_item i -> good_item j -> enc i ++ a = enc j ++ b -> i = j /\ a = b.
Proof.
have bs := ok_brepr_size ok.
case: i => [p|x|]; case: j => [q|y|] /= hi hj; rewrite -?(ok_coords0 ok) in hi hj.
- case ep: (e_coords E p) hi => [[x y]|] // _; case eq: (e_coords E q) hj => [[x' y']|] // _ /=.
  case; rewrite -!catA => /cat_inj2 [|ex /cat_inj2 [|ey ->]]; rewrite ?bs //; split=> //.
  congr IPoint; apply: coords_inj; first by rewrite -(ok_coords0 ok) ep.
  by rewrite ep eq (ok_brepr_inj ok ex) (ok_brepr_inj ok ey).
- by case: (e_coords E p) hi => [[? ?]|].
- by case: (e_coords E p) hi => [[? ?]|].
- by case: (e_coords E q) hj => [[? ?]|].
- case=> /cat_inj2 [|e ->]; rewrite ?repr_size //; split=> //; congr IScalar.
  by have := congr1 (e_from_repr E) e; rewrite !(ok_repr ok) => [[]].
- by [].
- by case: (e_coords E q) hj => [[? ?]|].
- by [].
by case.
Qed.

Lemma mmap_abs calls s ev s' : mmap do_write calls s = Ok (ev, s') ->
  w_abs s' = w_abs s ++ flatten [seq enc (item_of c) | c <- calls] /\
  all good_item [seq item_of c | c <- calls].
Proof.
elim: calls s ev s' => [|c calls IH] s ev s' /=; first by case=> _ <-; rewrite cats0.
rewrite {1}/mbind; case e: (do_write c s) => [[e1 s1]||] //=; rewrite /mbind.
case e2: (mmap do_write calls s1) => [[es s2]||] //= [_ <-].
have [-> ->] := IH _ _ _ e2; have [-> h1] := do_write_abs e.
by rewrite -catA andbT; split=> //; case: (c) h1.
Qed.

Lemma flatten_inj (l1 l2 : seq item) : all good_item l1 -> all good_item l2 ->
  flatten [seq enc i | i <- l1] = flatten [seq enc i | i <- l2] -> l1 = l2.
Proof.
have ne i : good_item i -> enc i != [::].
  by case: i => //= p; rewrite -(ok_coords0 ok); case: e_coords => [[]|].
elim: l1 l2 => [|i l1 IH] [|j l2] //=.
- by move=> _ /andP [/ne h _] /esym; case: (enc j) h.
- by move=> /andP [/ne h _] _; case: (enc i) h.
move=> /andP [hi h1] /andP [hj h2] /enc_inj -/(_ hi hj) [-> h].
by rewrite (IH l2).
Qed.

(* Two successful call sequences that reach the same hash state (started from the same
   state) absorbed the same items in the same order. *)
Theorem C19_absorption_unambiguous : forall (calls1 calls2 : seq (wcall G)) (s1 s2 : wst) ev1 ev2 s1' s2',
  w_abs s1 = w_abs s2 ->
  mmap do_write calls1 s1 = Ok (ev1, s1') -> mmap do_write calls2 s2 = Ok (ev2, s2') ->
  w_abs s1' = w_abs s2' ->
  [seq item_of c | c <- calls1] = [seq item_of c | c <- calls2].
Proof.
move=> c1 c2 s1 s2 ev1 ev2 s1' s2' h0 /mmap_abs [h1 g1] /mmap_abs [h2 g2].
rewrite h1 h2 h0 => /(@cat_inj2 _ _ _ _ erefl) [_].
by move=> h; apply: flatten_inj => //; rewrite -!map_comp.
Qed.

(* the same at every challenge: equal hash inputs mean equal histories *)
Theorem C19_challenge_binds_history : forall (calls1 calls2 : seq (wcall G)) (s : wst) ev1 ev2 s1' s2',
  mmap do_write calls1 s = Ok (ev1, s1') -> mmap do_write calls2 s = Ok (ev2, s2') ->
  injective (fun st => challenge_bytes E st) ->
  challenge_bytes E (absorb_challenge (w_abs s1')) = challenge_bytes E (absorb_challenge (w_abs s2')) ->
  [seq item_of c | c <- calls1] = [seq item_of c | c <- calls2].
Proof.
move=> c1 c2 s ev1 ev2 s1' s2' h1 h2 inj /inj; rewrite /absorb_challenge !cats1 => /rcons_inj [h].
exact: C19_absorption_unambiguous (erefl _) h1 h2 h.
Qed.
End Run.
Print Assumptions C18_reader_replays_writer.
Print Assumptions C18_events.
Print Assumptions C18_identity_rejected.
Print Assumptions C19_absorption_unambiguous.

(* A caller that ignores the error of common_point(identity) and goes on can make two
   different histories collide: the error leaves the one-byte prefix in the state. *)
Definition absorb_any (F B : fieldType) (G : lmodType F) (E : env B G) (st : seq nat) (c : wcall G) : seq nat :=
  match c with
  | WPoint p | WCommonPoint p => (absorb_point E st p).1
  | WScalar x | WCommonScalar x => absorb_scalar E st x
  | WSqueeze => absorb_challenge st
  end.
Theorem C19_after_error_refuted :
  exists calls1 calls2 : seq (wcall G97),
    foldl (absorb_any E97) [::] calls1 = foldl (absorb_any E97) [::] calls2 /\
    size calls1 <> size calls2.
Proof.
exists [:: WPoint (1 : G97)],
  ([:: WPoint (0 : G97); WPoint (0 : G97)] ++ nseq 31 WSqueeze ++ [:: WPoint (0 : G97)] ++ nseq 31 WSqueeze).
by split; [apply/eqP; vm_compute|].
Qed.
Print Assumptions C19_after_error_refuted.

(* Non-vacuity *)
Example C18_calls_ok : ~~ has (@is_identity_call F97 G97)
  [:: WCommonScalar 5%:R; WPoint (3%:R : G97); WSqueeze; WCommonPoint (4%:R : G97); WScalar 0; WSqueeze].
Proof. by vm_compute. Qed.
