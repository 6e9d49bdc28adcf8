(* Model of halo2_proofs/src/poly/commitment.rs (Params, commit, commit_lagrange, read,
   write) and poly/commitment/msm.rs (MSM). *)
Set Warnings "-notation-overridden,-ambiguous-paths".
From mathcomp Require Import all_ssreflect all_algebra.
From Verif Require Import Util M_FFT M_Multiexp M_Poly M_Env.
Import GRing.Theory.
Set Implicit Arguments.
Unset Strict Implicit.
Local Open Scope ring_scope.

(* uN::to_le_bytes (std) with [len] bytes *)
Fixpoint le_bytes (len n : nat) : seq nat :=
  if len is l.+1 then (n %% 256)%N :: le_bytes l (n %/ 256)%N else [::].

Section Commit.
Variables (F B : fieldType) (G : lmodType F) (E : env B G).

(* commitment.rs:26-33 struct Params *)
Record params := Params {
  p_k : nat; p_n : nat; p_g : seq G; p_gl : seq G; p_w : G; p_u : G }.

(* commitment.rs:52-61: one generator.  The counter is cast to u32; it is below 2^k with
   k < 32, so the cast is the identity, and le_bytes 4 drops any higher bits anyway. *)
Definition generator (i : nat) : G := e_h2c E (0%N :: le_bytes 4 i).

(* commitment.rs:38-114 Params::new.  batch_normalize and to_affine change the
   representation of points only and are the identity here. *)
Definition params_new (k : nat) : option params :=
  if ~~ (k < 32)%N then None else
  let n := (2 ^ k)%N in
  obind (fun g_projective =>
    let g := g_projective in
    let alpha_inv := iter (e_S E - k) (fun a => a ^+ 2) (e_rou E)^-1 in
    obind (fun gl =>
      let minv := (2%:R^-1 : F) ^+ k in
      omap (fun g_lagrange =>
        {| p_k := k; p_n := n; p_g := g; p_gl := g_lagrange;
           p_w := e_h2c E [:: 1%N]; p_u := e_h2c E [:: 2%N] |})
        (parallelize (e_threads E) gl (fun g _ => [seq minv *: x | x <- g])))
      (best_fft 0 (e_threads E) g_projective alpha_inv k))
    (parallelize (e_threads E) (nseq n 0) (fun g start => mapi_from start (fun i _ => generator i) g)).

Variable ps : params.

(* commitment.rs:119-130 commit *)
Definition commit (poly : seq F) (r : F) : option G :=
  multiexp E (poly ++ [:: r]) (p_g ps ++ [:: p_w ps]).
(* commitment.rs:135-150 commit_lagrange *)
Definition commit_lagrange (poly : seq F) (r : F) : option G :=
  multiexp E (poly ++ [:: r]) (p_gl ps ++ [:: p_w ps]).

(* commitment.rs:169-181 write *)
Definition params_write : seq nat :=
  le_bytes 4 (p_k ps) ++ flatten [seq e_to_bytes E g | g <- p_g ps]
    ++ flatten [seq e_to_bytes E g | g <- p_gl ps] ++ e_to_bytes E (p_w ps) ++ e_to_bytes E (p_u ps).

(* helpers.rs:8-13 CurveRead::read: 32 bytes *)
Definition curve_read (inp : seq nat) : res (G * seq nat) :=
  if (size inp < 32)%N then Err EIo
  else rbind (ok_or EIo (e_from_bytes E (take 32 inp))) (fun p => Ok (p, drop 32 inp)).
(* (0..n).map(|_| C::read(reader)).collect() *)
Fixpoint curve_read_n (n : nat) (inp : seq nat) : res (seq G * seq nat) :=
  if n is m.+1 then
    rbind (curve_read inp) (fun p => rbind (curve_read_n m p.2) (fun q => Ok (p.1 :: q.1, q.2)))
  else Ok ([::], inp).

(* commitment.rs:184-204 read.  1u64 << k panics (debug) when k >= 64. *)
Definition params_read (inp : seq nat) : res (params * seq nat) :=
  if (size inp < 4)%N then Err EIo else
  let k := le_val (take 4 inp) in
  if (64 <= k)%N then Panic else
  let n := (2 ^ k)%N in
  rbind (curve_read_n n (drop 4 inp)) (fun g =>
  rbind (curve_read_n n g.2) (fun gl =>
  rbind (curve_read gl.2) (fun w =>
  rbind (curve_read w.2) (fun u =>
    Ok ({| p_k := k; p_n := n; p_g := g.1; p_gl := gl.1; p_w := w.1; p_u := u.1 |}, u.2))))).

(* msm.rs:10-17 struct MSM.  The BTreeMap is an association list, in order of first
   insertion (only MSM::eval iterates over it, to form a sum). *)
Record msm := Msm {
  m_g : option (seq F); m_w : option F; m_u : option F; m_other : seq (B * (F * B)) }.

(* msm.rs:21-34 *)
Definition msm_new : msm := {| m_g := None; m_w := None; m_u := None; m_other := [::] |}.

(* msm.rs:40-51 and 72-83: entry(x).and_modify(..).or_insert((scalar, y)) *)
Fixpoint other_add (l : seq (B * (F * B))) (x : B) (scalar : F) (y : B)
    : option (seq (B * (F * B))) :=
  if l is (x', (our_scalar, our_y)) :: l' then
    if x' == x then
      if our_y == y then Some ((x', (our_scalar + scalar, our_y)) :: l')
      else if our_y == - y then Some ((x', (our_scalar - scalar, our_y)) :: l')
      else None                                                       (* assert *)
    else omap (cons (x', (our_scalar, our_y))) (other_add l' x scalar y)
  else Some [:: (x, (scalar, y))].

Definition with_other (m : msm) o := {| m_g := m_g m; m_w := m_w m; m_u := m_u m; m_other := o |}.
Definition with_g (m : msm) g := {| m_g := g; m_w := m_w m; m_u := m_u m; m_other := m_other m |}.

(* msm.rs:66-84 *)
Definition append_term (m : msm) (scalar : F) (point : G) : option msm :=
  if point == 0 then Some m
  else if e_coords E point is Some (x, y) then
    omap (with_other m) (other_add (m_other m) x scalar y)
  else None.

(* msm.rs:87-95; g_scalars[0] panics on an empty vector *)
Definition add_constant_term (m : msm) (constant : F) : option msm :=
  let v := if m_g m is Some v then v else nseq (p_n ps) 0 in
  if v is v0 :: v' then Some (with_g m (Some (v0 + constant :: v'))) else None.

(* msm.rs:99-108 *)
Definition add_to_g_scalars (m : msm) (scalars : seq F) : option msm :=
  if size scalars == p_n ps then
    Some (with_g m (Some (if m_g m is Some v then
                            mapi (fun i g => if (i < size scalars)%N then g + nth 0 scalars i else g) v
                          else scalars)))
  else None.

(* msm.rs:111-118 *)
Definition opt_acc (o : option F) (x : F) : option F := Some (if o is Some a then a + x else x).
Definition add_to_w_scalar (m : msm) (s : F) : msm :=
  {| m_g := m_g m; m_w := opt_acc (m_w m) s; m_u := m_u m; m_other := m_other m |}.
Definition add_to_u_scalar (m : msm) (s : F) : msm :=
  {| m_g := m_g m; m_w := m_w m; m_u := opt_acc (m_u m) s; m_other := m_other m |}.

(* msm.rs:37-63 *)
Definition add_msm (m other : msm) : option msm :=
  obind (fun o =>
    let m := with_other m o in
    omap (fun m =>
      let m := if m_w other is Some w then add_to_w_scalar m w else m in
      if m_u other is Some u then add_to_u_scalar m u else m)
      (if m_g other is Some g then add_to_g_scalars m g else Some m))
    (foldl (fun acc e => obind (fun l => other_add l e.1 e.2.1 e.2.2) acc)
           (Some (m_other m)) (m_other other)).

(* msm.rs:121-134 *)
Definition msm_scale (m : msm) (factor : F) : msm :=
  {| m_g := omap (map (fun x => x * factor)) (m_g m);
     m_w := omap (fun x => x * factor) (m_w m); m_u := omap (fun x => x * factor) (m_u m);
     m_other := [seq (e.1, (e.2.1 * factor, e.2.2)) | e <- m_other m] |}.

Definition ocons {T : Type} (x : option T) (l : option (seq T)) : option (seq T) :=
  obind (fun x => omap (cons x) l) x.

(* msm.rs:137-171 eval *)
Definition msm_eval (m : msm) : option bool :=
  let scalars := [seq e.2.1 | e <- m_other m] ++ (if m_w m is Some w then [:: w] else [::])
     ++ (if m_u m is Some u then [:: u] else [::]) ++ (if m_g m is Some g then g else [::]) in
  obind (fun bases =>
    let bases := bases ++ (if m_w m is Some _ then [:: p_w ps] else [::])
      ++ (if m_u m is Some _ then [:: p_u ps] else [::])
      ++ (if m_g m is Some _ then p_g ps else [::]) in
    omap (fun r => r == 0) (multiexp E scalars bases))
    (foldr (fun e => ocons (e_from_xy E e.1 e.2.2)) (Some [::]) (m_other m)).
End Commit.
Arguments msm_new {F B}.
