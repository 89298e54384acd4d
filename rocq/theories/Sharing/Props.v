(** Property theorems for pkg/sharing. *)
From mathcomp Require Import all_ssreflect all_algebra.
From Verif Require Import Lib.Res Lib.Inst Sharing.Model Sharing.Spec Sharing.Proofs.
Set Implicit Arguments.
Unset Strict Implicit.
Unset Printing Implicit Defensive.
Import GRing.Theory.
Local Open Scope ring_scope.

(** C01: any >= t distinct shares, in any order, combine to the secret (and to secret*G), unless one
    of them happens to have the value 0, in which case both calls return an error. *)
Theorem C01_shamir_reconstruct :
  forall (F : fieldType) (G : lmodType F) (g : G) (B : Type) (enc : F -> B) (dec : B -> option F),
  codec_ok enc dec -> big_field F ->
  forall (t n : nat) c s (secret : F) (rnd : nat -> F) (shares : seq (share B)),
  new_shamir t n c = Ok s -> split enc s secret rnd = Ok shares ->
  forall sel : seq (share B),
  (forall sh, List.In sh sel -> List.In sh shares) ->
  uniq [seq sh_id sh | sh <- sel] -> (t <= size sel)%N ->
  combine dec s (map Some sel) =
    (if has (fun sh => if dec (sh_val sh) is Some v then v == 0 else false) sel
     then Err else Ok secret) /\
  combine_points g dec s (map Some sel) =
    (if has (fun sh => if dec (sh_val sh) is Some v then v == 0 else false) sel
     then Err else Ok (secret *: g)).
Proof. exact shamir_reconstruct. Qed.
Print Assumptions C01_shamir_reconstruct.

(** Splitting always succeeds for a non-zero secret and deals ids 1..n: C01 is about something. *)
Theorem C01_shamir_split_total :
  forall (F : fieldType) (B : Type) (enc : F -> B) t n c s (secret : F) (rnd : nat -> F),
  new_shamir t n c = Ok s -> secret != 0 ->
  exists2 shares, split enc s secret rnd = Ok shares &
    [seq sh_id sh | sh <- shares] = iota 1 n.
Proof. exact split_total. Qed.
Print Assumptions C01_shamir_split_total.

Example C01_hyps : exists shares,
  [/\ codec_ok enc257 dec257, big_field F257, new_shamir 2 3 (Some tt) = Ok (Shamir 2 3),
      split enc257 (Shamir 2 3) (7%:R : F257) (fun _ => 5%:R) = Ok shares &
      let sel := [:: nth (Share 0 0) shares 2; nth (Share 0 0) shares 0] in
      (forall sh, List.In sh sel -> List.In sh shares) /\
      uniq [seq sh_id sh | sh <- sel] /\
      has (fun sh => if dec257 (sh_val sh) is Some v then v == 0 else false) sel = false].
Proof.
eexists; split=> //; first by apply: F_p_big; rewrite ?prime257.
by split; [move=> sh /= [<-|[<-|//]]; auto | split; vm_compute].
Qed.

(** C02: t-1 shares are consistent with every secret, for exactly one choice of the coefficients. *)
Theorem C02_shamir_secrecy :
  forall (F : fieldType) (B : Type) (enc : F -> B) (dec : B -> option F),
  codec_ok enc dec -> big_field F ->
  forall (t n : nat) c s (obs : seq (nat * F)) (secret : F),
  new_shamir t n c = Ok s -> secret != 0 ->
  size obs = t.-1 -> uniq [seq o.1 | o <- obs] ->
  (forall o, o \in obs -> (0 < o.1 <= n)%N) ->
  exists rnd : nat -> F,
    (exists2 shares, split enc s secret rnd = Ok shares &
       forall o, o \in obs -> List.In (Share o.1 (enc o.2)) shares) /\
    forall rnd' : nat -> F,
      (exists2 shares, split enc s secret rnd' = Ok shares &
         forall o, o \in obs -> List.In (Share o.1 (enc o.2)) shares) ->
      forall k, (k < t.-1)%N -> rnd' k = rnd k.
Proof. exact shamir_secrecy. Qed.
Print Assumptions C02_shamir_secrecy.

Example C02_hyps :
  let obs : seq (nat * F257) := [:: (3%N, 11%:R); (1%N, 0)] in
  [/\ new_shamir 3 5 (Some tt) = Ok (Shamir 3 5), size obs = 3.-1,
      uniq [seq o.1 | o <- obs] & forall o, o \in obs -> (0 < o.1 <= 5)%N].
Proof. by split=> // o; rewrite !inE => /orP[]/eqP ->. Qed.

(** C03: exact acceptance conditions of Combine / CombinePoints, and no panic on non-nil shares. *)
Theorem C03_combine_validation :
  forall (F : fieldType) (G : lmodType F) (g : G) (B : Type) (dec : B -> option F),
  big_field F ->
  forall (t n : nat) c s (l : seq (share B)),
  new_shamir t n c = Ok s ->
  (is_ok (combine dec s (map Some l)) <->
   [/\ (t <= size l)%N,
       (forall sh, List.In sh l -> (1 <= sh_id sh <= n)%N),
       (forall sh, List.In sh l -> exists2 v, dec (sh_val sh) = Some v & v != 0)
     & uniq [seq sh_id sh | sh <- l]]) /\
  ~~ is_panic (combine dec s (map Some l)) /\
  is_ok (combine_points g dec s (map Some l)) = is_ok (combine dec s (map Some l)) /\
  ~~ is_panic (combine_points g dec s (map Some l)).
Proof. exact combine_ok_iff. Qed.
Print Assumptions C03_combine_validation.

(** C03 (constructor): NewShamir accepts exactly 2 <= t <= n <= 255 with a curve. *)
Theorem C03_new_shamir :
  forall t n c, is_ok (new_shamir t n c) = [&& (2 <= t)%N, (t <= n)%N, (n <= 255)%N & c != None].
Proof. exact new_shamir_ok. Qed.
Print Assumptions C03_new_shamir.

(** C03 finding: for every configuration and secret some honest dealing is refused by Combine,
    because one of its shares has the value 0. *)
Theorem C03_zero_share_refuted :
  forall (F : fieldType) (B : Type) (enc : F -> B) (dec : B -> option F),
  codec_ok enc dec -> big_field F ->
  forall (t n : nat) c s (secret : F),
  new_shamir t n c = Ok s -> secret != 0 ->
  exists rnd shares,
    split enc s secret rnd = Ok shares /\ combine dec s (map Some shares) = Err.
Proof. exact shamir_zero_share. Qed.
Print Assumptions C03_zero_share_refuted.

(** C04: against commitments to the coefficients cs, Verify accepts exactly the shares whose value is
    the committed polynomial at the share's identifier (non-zero id, non-zero value). *)
Theorem C04_feldman_exact :
  forall (F : fieldType) (G : lmodType F) (g : G) (B : Type) (dec : B -> option F),
  base_ok g ->
  forall (cs : seq F) (sh : share B), cs != [::] ->
  (feldman_verify g dec [seq c *: g | c <- cs] (Some sh) = Ok tt <->
   [/\ sh_id sh <> 0%N, dec (sh_val sh) = Some (Poly cs).[(sh_id sh)%:R] &
       (Poly cs).[(sh_id sh)%:R] <> 0]).
Proof. exact feldman_verify_iff. Qed.
Print Assumptions C04_feldman_exact.

(** C04: shares dealt by Feldman.Split verify (unless zero-valued). *)
Theorem C04_feldman_complete :
  forall (F : fieldType) (G : lmodType F) (g : G) (B : Type) (enc : F -> B) (dec : B -> option F),
  codec_ok enc dec ->
  forall (t n : nat) c s (secret : F) rnd comms shares,
  new_shamir t n c = Ok s -> feldman_split g enc s secret rnd = Ok (comms, shares) ->
  base_ok g ->
  forall sh, List.In sh shares ->
  feldman_verify g dec comms (Some sh) =
  if dec (sh_val sh) is Some v then if v == 0 then Err else Ok tt else Err.
Proof. exact feldman_split_verifies. Qed.
Print Assumptions C04_feldman_complete.

Example C04_hyps : exists comms shares,
  [/\ base_ok g257, codec_ok enc257 dec257 &
   feldman_split g257 enc257 (Shamir 3 4) (9%:R : F257) (fun k => (k.+2)%:R) = Ok (comms, shares)].
Proof.
eexists; eexists; split=> //; exact: base257.
Qed.

(** C05: every pair dealt by Pedersen.Split verifies (unless one of the two values is 0) ... *)
Theorem C05_pedersen_complete :
  forall (F : fieldType) (G : lmodType F) (g : G) (B : Type) (enc : F -> B) (dec : B -> option F),
  codec_ok enc dec ->
  forall (t n : nat) gen s (secret : F) rnd r,
  new_pedersen t n gen true = Ok s -> pedersen_split g enc s secret rnd = Ok r ->
  forall i, (i < n)%N ->
  exists sh bl, [/\ List.In sh (pr_secret_shares r), List.In bl (pr_blinding_shares r),
     sh_id sh = i.+1 /\ sh_id bl = i.+1 &
     pedersen_verify g dec (pr_pedersen r) (Some sh) (Some bl) =
       (if zero_valued dec sh || zero_valued dec bl then Err else Ok tt)].
Proof. exact pedersen_split_verifies. Qed.
Print Assumptions C05_pedersen_complete.

(** ... two accepted openings for one identifier give a linear relation between g and h ... *)
Theorem C05_pedersen_binding :
  forall (F : fieldType) (G : lmodType F) (g : G) (B : Type) (dec : B -> option F)
    (pv : pedersen_verifier G) s1 b1 s2 b2,
  pedersen_verify g dec pv (Some s1) (Some b1) = Ok tt ->
  pedersen_verify g dec pv (Some s2) (Some b2) = Ok tt ->
  sh_id s1 = sh_id s2 ->
  exists v1 w1 v2 w2,
    [/\ dec (sh_val s1) = Some v1, dec (sh_val b1) = Some w1,
        dec (sh_val s2) = Some v2 & dec (sh_val b2) = Some w2] /\
    (v1 - v2) *: g = (w2 - w1) *: pv_gen pv.
Proof. exact pedersen_binding. Qed.
Print Assumptions C05_pedersen_binding.

(** ... and the identifier of the blinding share is never looked at (finding). *)
Theorem C05_pedersen_blind_id_ignored :
  forall (F : fieldType) (G : lmodType F) (g : G) (B : Type) (dec : B -> option F)
    (pv : pedersen_verifier G) s b k,
  sh_id b <> 0%N -> k <> 0%N ->
  pedersen_verify g dec pv (Some s) (Some (Share k (sh_val b))) =
  pedersen_verify g dec pv (Some s) (Some b).
Proof. exact pedersen_blind_id_ignored. Qed.
Print Assumptions C05_pedersen_blind_id_ignored.

(** NewPedersen panics on a nil generator although it has a nil check. *)
Theorem C05_new_pedersen_nil_panics :
  forall (F : fieldType) (G : lmodType F) t n, (2 <= t)%N -> (t <= n)%N -> (n <= 255)%N ->
  new_pedersen t n (None : option G) true = Panic.
Proof. exact new_pedersen_nil. Qed.
Print Assumptions C05_new_pedersen_nil_panics.

Example C05_hyps : exists r,
  new_pedersen 2 3 (Some (5%:R : F257) : option G257) true = Ok (Shamir 2 3, 5%:R) /\
  pedersen_split g257 enc257 (Shamir 2 3, (5%:R : F257) : G257) (9%:R : F257) (fun k => (k.+2)%:R) = Ok r
  /\ exists sh bl, pedersen_verify g257 dec257 (pr_pedersen r) (Some sh) (Some bl) = Ok tt.
Proof.
eexists; split; first by vm_compute.
split; first by rewrite /pedersen_split !get_poly_and_sharesE.
exists (Share 1 (enc257 (12%:R : F257))), (Share 1 (enc257 (6%:R : F257))).
by vm_compute.
Qed.

(** C06: Lagrange coefficients, for every order in which the map is iterated. *)
Theorem C06_lagrange_coeffs :
  forall (F : fieldType) (ids keys : seq nat),
  perm_eq keys (undup ids) ->
  {in ids &, injective (fun i : nat => i%:R : F)} ->
  exists ws : seq (nat * F),
    [/\ lagrange_coeffs F keys = Ok ws, map fst ws = keys &
     forall f : {poly F}, (size f <= size keys)%N -> \sum_(w <- ws) w.2 * f.[(w.1)%:R] = f.[0]].
Proof. exact lagrange_coeffs_correct. Qed.
Print Assumptions C06_lagrange_coeffs.

Example C06_hyps :
  perm_eq [:: 5; 2; 9]%N (undup [:: 2; 5; 2; 9]%N) /\
  {in [:: 2; 5; 2; 9]%N &, injective (fun i : nat => i%:R : F257)}.
Proof.
split=> // i j; rewrite !inE => hi hj; apply: (big_field_inj (F_p_big prime257 isT)).
  by move: hi => /or4P[]/eqP ->.
by move: hj => /or4P[]/eqP ->.
Qed.
