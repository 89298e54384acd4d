(** C58: Camenisch-Shoup verifiable encryption (pkg/verenc/camshoup). *)
From Coq Require Import ZArith Znumtheory Zdiv Lia Setoid Morphisms.
From mathcomp Require Import ssreflect ssrfun ssrbool eqtype ssrnat seq.
From Verif Require Import Lib.Res Lib.Bytes Core.ModModel Core.ModProofs Gg20.ZkProofs Gg20.SignProofs Verenc.CsModel Verenc.CsProofs.
Set Implicit Arguments. Unset Strict Implicit. Unset Printing Implicit Defensive.
Local Open Scope Z_scope.
Local Arguments Z.mul : simpl never.
Local Arguments Z.pow : simpl never.
Local Arguments Z.modulo : simpl never.
Local Arguments Z.add : simpl never.
Local Arguments Z.sub : simpl never.
Local Arguments Z.opp : simpl never.
Local Arguments group_hash : simpl never.
Local Arguments fiat_shamir : simpl never.

(** A usable pair of primes and random gTick: odd modulus, gTick invertible. *)
Definition usable p q gt := 1 < p * q /\ (p * q) mod 2 = 1 /\ Z.gcd gt (p * q) = 1.

Section Props.
Variable hash : seq bytes -> outcome Z.
Hypothesis hash_nonneg : forall s z, hash s = Ok z -> 0 <= z.

Lemma group_hash_nonneg u e d z : group_hash hash u e d = Ok z -> 0 <= z.
Proof. by rewrite /group_hash; case: u => // u; case: e => // e es; case: d => // d; apply: hash_nonneg. Qed.

Lemma mapo_gexp pg n xs : good pg n -> all (Z.leb 0) xs ->
  mapo (fun x => deref (gexp pg x)) xs = Ok [seq p_g pg ^ x mod (n * n) | x <- xs].
Proof.
move=> hp; elim: xs => //= x xs IH /andP[/Z.leb_le hx hxs].
by rewrite (gexpE hp) //; cbn [deref bind]; rewrite IH.
Qed.

Lemma new_keysE pg n x1 x2 x3 ek dk : good pg n -> all (Z.leb 0) x1 -> 0 <= x2 -> 0 <= x3 ->
  new_keys pg x1 x2 x3 = Ok (ek, dk) ->
  ek = EK [seq p_g pg ^ x mod (n * n) | x <- x1] (p_g pg ^ x2 mod (n * n)) (p_g pg ^ x3 mod (n * n)) pg /\ dk = DK x1 x2 x3 pg.
Proof.
move=> hp h1 h2 h3; rewrite /new_keys /encryption_key; case: (size x1) => // k; cbn [dk_group dk_x1 dk_x2 dk_x3].
by rewrite !(gexpE hp) //; cbn [deref bind]; rewrite (mapo_gexp hp) //; cbn [bind] => -[<- <-].
Qed.

Lemma encrypt_with_rE ek n domain ms r ct : good (ek_group ek) n -> 0 <= r -> (size ms <= size (ek_y1 ek))%N ->
  encrypt_with_r hash ek domain ms r = Ok ct ->
  let N := n * n in
  let u := p_g (ek_group ek) ^ r mod N in
  let e := [seq ee n ym.1 r ym.2 | ym <- zip (ek_y1 ek) ms] in
  exists hs, let a := (ek_y2 ek * (ek_y3 ek ^ hs mod N)) mod N in
    [/\ group_hash hash (Some u) e domain = Ok hs, 0 <= hs &
        ct = CT (Some u) (Some (cs_abs (ek_group ek) (a ^ r mod N))) (Some e)].
Proof.
move=> hp hr hs; rewrite /encrypt_with_r (gexpE hp) //; cbn [deref bind].
rewrite (compute_eE hp) //; cbn [bind] => h; binv h hsh ehs h'.
have hh := group_hash_nonneg ehs; exists hsh; split => //.
move: h'; rewrite /compute_v (expE hp) // (mulE hp); cbn [bind]; rewrite (expE hp) //; cbn [deref bind].
by case=> <-.
Qed.

Lemma g_unit pg n k : good pg n -> 0 <= k -> Z.gcd (p_g pg ^ k mod (n * n)) (n * n) = 1.
Proof.
move=> hp hk; apply: (@gcd1_mod (p_g pg ^ k)); [exact: (hN1 hp)|by symmetry; apply: cg_mod|].
by apply: gcd_pow; [exact: gd_g hp|].
Qed.

Lemma pow_cg_mod n x k r : 0 <= r -> 0 <= k -> (x ^ k mod n) ^ r =[n] x ^ (k * r).
Proof. by move=> hr hk; rewrite -> (cg_mod n (x ^ k)); rewrite -Z.pow_mul_r //; exact: cg_refl. Qed.

(** Whatever Encrypt or EncryptAndProve encrypts, Decrypt returns, reduced modulo n. *)
Lemma decrypt_encrypted pg n x1 x2 x3 ek dk domain ms r ct :
  good pg n -> all (Z.leb 0) x1 -> 0 <= x2 -> 0 <= x3 -> 0 <= r ->
  new_keys pg x1 x2 x3 = Ok (ek, dk) -> (size ms <= size x1)%N ->
  encrypt_with_r hash ek domain ms r = Ok ct ->
  cs_decrypt hash dk domain (Some ct) = Ok [seq m mod n | m <- ms].
Proof.
move=> hp h1 h2 h3 hr hk hs; have [-> ->] := new_keysE hp h1 h2 h3 hk => /encrypt_with_rE -/(_ n hp hr).
cbn [ek_y1 ek_y2 ek_y3 ek_group]; rewrite size_map => /(_ hs); lazy zeta.
set N := n * n; set g := p_g pg; set u := g ^ r mod N; set e := map _ _.
case=> h [hh h0 ->]; set a := (_ * _) mod N.
have hgu : Z.gcd u N = 1 by apply: (g_unit hp).
have hse : size e = size ms by rewrite size_map size_zip size_map; apply/minn_idPr.
rewrite /cs_decrypt; cbn [dk_group dk_x1 dk_x2 dk_x3]; rewrite ltnNge hse hs /=.
have ea : a =[N] g ^ (x2 + h * x3).
  rewrite /a; rewrite -> (cg_mod N (g ^ x2 mod N * ((g ^ x3 mod N) ^ h mod N))).
  rewrite -> (cg_mod N (g ^ x2)), (cg_mod N ((g ^ x3 mod N) ^ h)), (pow_cg_mod N g h0 h3).
  by rewrite Z.pow_add_r; try nia; rewrite (Z.mul_comm x3); exact: cg_refl.
have hga : Z.gcd (a ^ r mod N) N = 1.
  apply: (@gcd1_mod (a ^ r)); [exact: (hN1 hp)|by symmetry; apply: cg_mod|].
  apply: gcd_pow => //; apply: (@gcd1_mod (g ^ (x2 + h * x3))); [exact: (hN1 hp)|by symmetry|].
  by apply: gcd_pow; [exact: gd_g hp|nia].
case: (Z.eqb_spec u 0) => [eu|_] /=; first by have := unit_neq0 hp hgu; rewrite eu Zmod_0_l.
case: (Z.eqb_spec (cs_abs pg (a ^ r mod N)) 0) => [ev|_] /=; first by have := abs_unit hp hga.
have he i : (i < size e)%N -> nth 0 e i =[N] u ^ nth 0 x1 i * (1 + nth 0 ms i * n) /\ Z.gcd (nth 0 e i) N = 1.
  move=> hi; have hi' : (i < size ms)%N by rewrite -hse.
  have hi1 : (i < size x1)%N by apply: leq_trans hi' hs.
  have hx : 0 <= nth 0 x1 i by apply/Z.leb_le; apply: (all_nthP 0 h1).
  rewrite /e (nth_map (0, 0)); last by rewrite size_zip size_map leq_min hi1.
  rewrite nth_zip_cond size_zip size_map leq_min hi1 hi' /=.
  rewrite (nth_map 0) //; split; last by apply: (ee_unit hp) => //; apply: (g_unit hp).
  rewrite /u; rewrite -> (eeE n (g ^ nth 0 x1 i mod N) r (nth 0 ms i)), (pow_cg_mod N g hr hx), (pow_cg_mod N g hx hr).
  rewrite (Z.mul_comm (nth 0 x1 i) r); exact: cg_refl.
have -> : has (Z.eqb^~ 0) e = false.
  apply/negbTE; apply/negP => /(has_nthP 0) [i hi /Z.eqb_eq ez].
  by have := unit_neq0 hp (proj2 (he i hi)); rewrite ez Zmod_0_l.
have ab := abs_small hp (abs_range hp (a ^ r mod N)); rewrite ab Z.eqb_refl /=.
rewrite hh; cbn [bind]; rewrite (expE hp); last by nia.
cbn [deref bind]; rewrite ?(expE hp) ?(gd_n2 hp) //; cbn [deref bind].
have -> : u ^ (2 * (h * x3 + x2)) mod (n * n) = cs_abs pg (a ^ r mod N) ^ 2 mod (n * n).
  apply: cgE; rewrite -/N; rewrite -> (abs_sq hp (a ^ r mod N)), (cg_mod N (a ^ r)).
  rewrite -Z.pow_mul_r //; rewrite -> ea.
  rewrite -Z.pow_mul_r; try nia.
  rewrite /u; rewrite -> (pow_cg_mod N g (r := 2 * (h * x3 + x2))); try nia.
  by apply: cg_eq; f_equal; ring.
rewrite Z.eqb_refl /=; apply: (dec_loopE hp) => //; first by rewrite hse.
by move=> i hi; have [] := he i hi.
Qed.

Theorem C58_decrypt_encrypt p q gt pg x1 x2 x3 ek dk domain msgs r ct :
  usable p q gt -> new_group p q gt = Ok pg ->
  all (Z.leb 0) x1 -> 0 <= x2 -> 0 <= x3 -> 0 <= r -> new_keys pg x1 x2 x3 = Ok (ek, dk) ->
  cs_encrypt hash ek domain [seq Some m | m <- msgs] r = Ok ct ->
  cs_decrypt hash dk domain (Some ct) = Ok [seq m mod (p * q) | m <- msgs].
Proof.
move=> [h1 [h2 h3]] hg hx1 hx2 hx3 hr hk; have [pg' [eg hp]] := new_groupE h1 h2 h3.
move: eg; rewrite hg => -[E]; subst pg'.
have [-> _] := new_keysE hp hx1 hx2 hx3 hk.
rewrite /cs_encrypt; case: ltnP => // hs; case: ifP => // _.
have -> : pmap id [seq Some m | m <- msgs] = msgs by elim: (msgs) => //= a s ->.
have [<- _] := new_keysE hp hx1 hx2 hx3 hk.
apply: (decrypt_encrypted hp) hk _ => //.
by move: hs; rewrite /= !size_map.
Qed.

(** So messages in [0,n) round-trip ... *)
Theorem C58_roundtrip p q gt pg x1 x2 x3 ek dk domain msgs r ct :
  usable p q gt -> new_group p q gt = Ok pg ->
  all (Z.leb 0) x1 -> 0 <= x2 -> 0 <= x3 -> 0 <= r -> new_keys pg x1 x2 x3 = Ok (ek, dk) ->
  all (fun m => (0 <=? m) && (m <? p * q)) msgs ->
  cs_encrypt hash ek domain [seq Some m | m <- msgs] r = Ok ct ->
  cs_decrypt hash dk domain (Some ct) = Ok msgs.
Proof.
move=> hu hg h1 h2 h3 hr hk hm /(C58_decrypt_encrypt hu hg h1 h2 h3 hr hk) ->; congr Ok.
elim: msgs hm => //= m ms IH /andP[/andP[/Z.leb_le ha /Z.ltb_lt hb] hms]; rewrite IH //.
by rewrite Z.mod_small.
Qed.

(** ... and (finding) the range check lets through m = n and every negative m, which decrypt to other values. *)
Theorem C58_range_check_refuted ek domain r m :
  (m <= p_n (ek_group ek)) -> (0 < size (ek_y1 ek))%N ->
  cs_encrypt hash ek domain [:: Some m] r = encrypt_with_r hash ek domain [:: m] r.
Proof. by move=> hm hs; rewrite /cs_encrypt /= ltnNge hs /=; case: Z.leb_spec => //; lia. Qed.

(** Encrypt refuses too many messages, nil messages, messages above n, no messages and a nil domain. *)
Theorem C58_encrypt_rejects p q gt pg x1 x2 x3 ek dk domain msgs r :
  usable p q gt -> new_group p q gt = Ok pg ->
  all (Z.leb 0) x1 -> 0 <= x2 -> 0 <= x3 -> 0 <= r -> new_keys pg x1 x2 x3 = Ok (ek, dk) ->
  (size x1 < size msgs)%N \/ has (fun m => ~~ isSome m) msgs \/ has (fun m => if m is Some m then p * q <? m else false) msgs
    \/ msgs = [::] \/ domain = None ->
  cs_encrypt hash ek domain msgs r = Err.
Proof.
move=> [h1 [h2 h3]] hg hx1 hx2 hx3 hr hk; have [pg' [eg hp]] := new_groupE h1 h2 h3.
move: eg; rewrite hg => -[E]; subst pg'.
have [-> _] := new_keysE hp hx1 hx2 hx3 hk => h.
rewrite /cs_encrypt; cbn [ek_y1 ek_group]; rewrite size_map; case: ltnP => // hs; case: ifP => // /negbFE ha.
have hpm : (size (pmap id msgs) <= size x1)%N by apply: leq_trans hs; rewrite size_pmap; exact: count_size.
rewrite /encrypt_with_r (gexpE hp) //; cbn [deref bind ek_y1 ek_group]; rewrite (compute_eE hp) ?size_map //; cbn [bind].
case: h => [h|[h|[h|[h|h]]]].
- by move: hs; rewrite leqNgt h.
- exfalso; move: h ha; clear; elim: msgs => //= -[m|] ms IH //= h /andP[_ hb]; exact: IH.
- exfalso; move: h ha; rewrite (gd_n hp); clear; elim: msgs => //= -[m|] ms IH //= /orP[/Z.ltb_lt a|h] /andP[/Z.leb_le b hb]; [lia|exact: IH].
- by rewrite h /=; case: (x1).
- by rewrite h /group_hash; case: (map _ _).
Qed.

(** What a successful decryption says about any ciphertext: v^2 = u^(2(x2 + h x3)), v is its absolute value, and
    each message is in [0,n) with (e/u^x)^(n+1) = 1 + m n modulo n^2. *)
Theorem C58_decrypt_sound p q gt pg x1 x2 x3 ek dk domain ct ms :
  usable p q gt -> new_group p q gt = Ok pg ->
  all (Z.leb 0) x1 -> 0 <= x2 -> 0 <= x3 -> new_keys pg x1 x2 x3 = Ok (ek, dk) ->
  cs_decrypt hash dk domain (Some ct) = Ok ms ->
  let n := p * q in
  exists u v e hs,
    [/\ ct = CT (Some u) (Some v) (Some e), group_hash hash (Some u) e domain = Ok hs,
        0 <= v <= n * n / 2, size ms = size e & (size e <= size x1)%N] /\
    v ^ 2 =[n * n] u ^ (2 * (hs * x3 + x2)) /\
    forall i, (i < size e)%N -> 0 <= nth 0 ms i < n /\
      exists w, (u ^ nth 0 x1 i) * w =[n * n] 1 /\ (nth 0 e i * w) ^ (n + 1) =[n * n] 1 + nth 0 ms i * n.
Proof.
move=> [h1 [h2 h3]] hg hx1 hx2 hx3 hk; have [pg' [eg hp]] := new_groupE h1 h2 h3.
move: eg; rewrite hg => -[E]; subst pg'.
have [_ ->] := new_keysE hp hx1 hx2 hx3 hk; set n := p * q in hp *; set N := n * n.
case: ct => [[u|] [v|] [e|]] //; rewrite /cs_decrypt; cbn [dk_group dk_x1 dk_x2 dk_x3].
case: ltnP => // hs; case: ifP => // _; case: ifP => // _.
case: (Z.eqb_spec v (cs_abs pg v)) => //= ev h; binv h hsh ehs h'; have h0 := group_hash_nonneg ehs.
move: h'; rewrite (expE hp); last by nia.
cbn [deref bind]; rewrite ?(expE hp) ?(gd_n2 hp) //; cbn [deref bind]; case: Z.eqb_spec => //= eq hl.
exists u, v, e, hsh; split; [split => //|split].
- by rewrite ev; apply: (abs_range hp).
- elim: (e) (x1) (ms) hl => [|x es IH] [|y ys] zs //=; try by case=> <-.
  move=> h; binv h a ea h'; binv h' b eb h''; binv h'' c ec h3'; move: h3'; case: ifP => // _ h.
  by binv h d ed h4; case: h4 => <- /=; rewrite (IH ys d).
- by split; rewrite -/N eq.
elim: (e) (x1) (ms) hx1 hs hl => [|x es IH] [|y ys] zs //= /andP[/Z.leb_le hy hys] hs.
rewrite (expE hp) //; cbn [deref bind] => h; binv h a ea h'; binv h' b eb h''.
move: h''; rewrite (gd_n hp) (gd_n2 hp); case: Z.eqb_spec => // hb h; binv h d ed h4; case: h4 => <- [|i] hi /=.
  have hn := gd_n1 hp; have hN := hN1 hp.
  have eb' : b = (a ^ (n + 1)) mod N.
    by move: eb; rewrite (gd_t hp) (expE hp); [case=> <-|lia].
  have hbN : 0 <= b < N by rewrite eb'; apply: Z.mod_pos_bound; lia.
  rewrite (Z.mod_small b) //.
  have ebn : b = 1 + (b - 1) / n * n.
    have hm : (b - 1) mod n = 0 by rewrite Zminus_mod hb (Z.mod_1_l n) // Z.sub_diag Zmod_0_l.
    by have := Z_div_mod_eq_full (b - 1) n; rewrite hm; lia.
  split.
    have : 1 <= b by case: (Z.eq_dec b 0) hb => [->|? _]; [rewrite Zmod_0_l|lia].
    move=> b1; split; first by apply: Z.div_pos; lia.
    by apply: Z.div_lt_upper_bound; lia.
  move: ea; rewrite /cs_mul /cs_inv (gd_n2 hp); case E: (mod_inverse _ _) => [w|] // -[ea].
  have N0 : 0 < n * n by nia.
  have [_ [hw _]] := mod_inverse_some _ _ _ N0 E.
  exists w; split; first by split; rewrite -/N -hw Zmult_mod_idemp_l.
  rewrite -ebn eb'; rewrite -> (cg_mod N (a ^ (n + 1))); rewrite -ea -/N; rewrite -> (cg_mod N (x * w)); exact: cg_refl.
exact: (IH ys d).
Qed.

(** Finding: the ciphertext (n, n, e), which anyone can write down, passes every check of Decrypt and makes it
    panic. *)
Theorem C58_decrypt_panics p q gt pg x1 x2 x3 ek dk domain e hs :
  usable p q gt -> new_group p q gt = Ok pg ->
  all (Z.leb 1) x1 -> 1 <= x2 -> 0 <= x3 -> new_keys pg x1 x2 x3 = Ok (ek, dk) ->
  (0 < size e <= size x1)%N -> ~~ has (Z.eqb^~ 0) e ->
  group_hash hash (Some (p * q)) e (Some domain) = Ok hs ->
  cs_decrypt hash dk (Some domain) (Some (CT (Some (p * q)) (Some (p * q)) (Some e))) = Panic.
Proof.
move=> [h1 [h2 h3]] hg hx1 hx2 hx3 hk /andP[he1 he2] he hh; have [pg' [eg hp]] := new_groupE h1 h2 h3.
move: eg; rewrite hg => -[E]; subst pg'.
have hx1' : all (Z.leb 0) x1 by apply: sub_all hx1 => z /Z.leb_le hz; apply/Z.leb_le; lia.
have hx2' : 0 <= x2 by lia.
have [_ ->] := new_keysE hp hx1' hx2' hx3 hk; set n := p * q in hp h1 h2 hh *.
have h0 := group_hash_nonneg hh.
rewrite /cs_decrypt; cbn [dk_group dk_x1 dk_x2 dk_x3]; rewrite ltnNge he2 /=.
case: (Z.eqb_spec n 0) => [e0|_] /=; first lia.
rewrite (negbTE he) (abs_small hp); last first.
  split; first lia.
  apply: Z.div_le_lower_bound; first lia.
  have : 3 <= n; last nia.
  have [e2|//] : n = 2 \/ 3 <= n by lia.
  by rewrite e2 in h2.
rewrite Z.eqb_refl /= hh; cbn [bind]; rewrite (expE hp); last by nia.
cbn [deref bind]; rewrite ?(expE hp) ?(gd_n2 hp) //; cbn [deref bind].
have pw k : 2 <= k -> n ^ k mod (n * n) = 0.
  move=> hk2; rewrite (_ : k = (k - 2) + 2); last lia.
  by rewrite Z.pow_add_r; try lia; rewrite Z.pow_2_r; apply: Z.mod_mul; nia.
rewrite !pw //; last by nia.
rewrite Z.eqb_refl /=.
case: x1 e hx1 {hk hx1' he he2 hh} he1 => [|x xs] [|y ys] //= /andP[/Z.leb_le hx _] _.
rewrite (expE hp); last by lia.
cbn [deref bind]; rewrite /cs_inv.
have -> : mod_inverse (n ^ x mod (n * n)) (p_n2 pg) = None; last by [].
rewrite (gd_n2 hp); case E: (mod_inverse _ _) => [w|] //; exfalso.
have N0 : 0 < n * n by nia.
have [_ [hw _]] := mod_inverse_some _ _ _ N0 E.
have : (n ^ x mod (n * n) * w) mod n = 0.
  rewrite Zmult_mod (_ : (n ^ x mod (n * n)) mod n = 0) ?Z.mul_0_l ?Zmod_0_l //.
  rewrite -Znumtheory.Zmod_div_mod; try nia; last by exists n.
  rewrite (_ : x = (x - 1) + 1); last lia.
  by rewrite Z.pow_add_r; try lia; rewrite Z.pow_1_r Z.mod_mul //; lia.
have -> : (n ^ x mod (n * n) * w) mod n = ((n ^ x mod (n * n) * w) mod (n * n)) mod n.
  by rewrite -Znumtheory.Zmod_div_mod; try nia; exists n.
by rewrite hw Z.mod_1_l ?Z.mod_1_l //; nia.
Qed.

(** ** Proofs of encryption *)

Lemma verify_core ek n nonce u v e hs c r rb te tu tv rr ms :
  good (ek_group ek) n -> Z.gcd (ek_y2 ek) (n * n) = 1 -> Z.gcd (ek_y3 ek) (n * n) = 1 ->
  0 <= r -> 0 <= rb -> 0 <= hs -> 0 <= c -> rr = rb - c * r ->
  let N := n * n in
  let a := (ek_y2 ek * (ek_y3 ek ^ hs mod N)) mod N in
  u = p_g (ek_group ek) ^ r mod N -> v = cs_abs (ek_group ek) (a ^ r mod N) ->
  tu = p_g (ek_group ek) ^ (2 * rb) mod N -> tv = a ^ (2 * rb) mod N ->
  (size ms <= size (ek_y1 ek))%N ->
  ver_loop (ek_group ek) (ek_y1 ek) e ms (2 * c) (2 * rr) = Ok te ->
  group_hash hash (Some u) e nonce = Ok hs ->
  fiat_shamir hash ek nonce u v e tu tv te = Ok c ->
  verify_encrypt_proof hash ek nonce (Some (CT (Some u) (Some v) (Some e))) (Some (CP (Some c) (Some rr) (Some ms))) = Ok tt.
Proof.
move=> hp hy2 hy3 hr hrb hh0 hc er N a eu ev etu etv hsz hte hhs hfs.
rewrite /verify_encrypt_proof ltnNge hsz /=.
have hN := hN1 hp.
have [gi [hgi eg]] := big_exp_unit hN (gd_g hp).
have ha : Z.gcd a N = 1.
  apply: (@gcd1_mod (ek_y2 ek * ek_y3 ek ^ hs)) => //; last by apply: gcd_mul => //; apply: gcd_pow.
  symmetry; rewrite /a; rewrite -> (cg_mod N (ek_y2 ek * (ek_y3 ek ^ hs mod N))), (cg_mod N (ek_y3 ek ^ hs)).
  exact: cg_refl.
have [ai [hai eai]] := big_exp_unit hN ha.
have key x xi : x * xi =[N] 1 -> x ^ (r * (2 * c)) * P x xi (2 * rr) =[N] x ^ (2 * rb).
  move=> hx; rewrite -(@P_nonneg x xi (r * (2 * c))); last nia.
  rewrite <- (P_add hx); rewrite (_ : r * (2 * c) + 2 * rr = 2 * rb); last by rewrite er; ring.
  by rewrite P_nonneg; [exact: cg_refl|lia].
rewrite (@expE _ _ hp u); last lia.
rewrite {1}/gexp (gd_n2 hp) eg (mulE hp); cbn [bind].
have -> : (u ^ (2 * c) mod (n * n) * (P (p_g (ek_group ek)) gi (2 * rr) mod (n * n))) mod (n * n) = tu.
  rewrite etu; apply: cgE; rewrite -/N.
  rewrite -> (cg_mod N (u ^ (2 * c))), (cg_mod N (P (p_g (ek_group ek)) gi (2 * rr))).
  rewrite eu; rewrite -> (cg_mod N (p_g (ek_group ek) ^ r)).
  rewrite -Z.pow_mul_r; try lia.
  exact: key.
rewrite hte; cbn [bind]; rewrite hhs; cbn [bind].
rewrite (@expE _ _ hp (ek_y3 ek)) // (mulE hp); cbn [bind]; rewrite -/N -/a.
rewrite (@expE _ _ hp v); last lia.
rewrite {1}/cs_exp (gd_n2 hp) eai (mulE hp); cbn [bind].
have -> : (v ^ (2 * c) mod (n * n) * (P a ai (2 * rr) mod (n * n))) mod (n * n) = tv.
  rewrite etv; apply: cgE; rewrite -/N.
  rewrite -> (cg_mod N (v ^ (2 * c))), (cg_mod N (P a ai (2 * rr))).
  rewrite ev Z.pow_mul_r; try lia.
  rewrite -> (abs_sq hp (a ^ r mod N)), (cg_mod N (a ^ r)).
  rewrite -!Z.pow_mul_r; try nia.
  exact: key.
by rewrite hfs; cbn [bind]; rewrite Z.eqb_refl.
Qed.

Lemma pmap_all_some (T : Type) (s : seq (option T)) : all isSome s -> size (pmap id s) = size s.
Proof. by elim: s => //= -[a|] s IH //= h; rewrite IH. Qed.

(** Every proof EncryptAndProve makes is accepted, provided challenge * r did not wrap around n^2 (with r < n/2 and
    a 256-bit challenge this holds for every n of 256 bits or more). *)
Theorem C58_proof_complete ek n nonce msgs blindings r rb ct pf c :
  good (ek_group ek) n -> all (fun y => Z.gcd y (n * n) =? 1) [:: ek_y2 ek, ek_y3 ek & ek_y1 ek] ->
  0 <= r -> 0 <= rb ->
  encrypt_and_prove hash ek nonce msgs blindings r rb = Ok (ct, pf) ->
  cp_c pf = Some c -> c * r < n * n ->
  verify_encrypt_proof hash ek nonce (Some ct) (Some pf) = Ok tt.
Proof.
move=> hp /=/and3P[/Z.eqb_eq hy2 /Z.eqb_eq hy3 hy1] hr hrb; rewrite /encrypt_and_prove.
case: eqP => //= hsz; case: ltnP => // hs; case: ifP => // /negbT; rewrite negb_or !negbK => /andP[hb hm] h.
have hb' : all isSome blindings by apply: sub_all hb => -[].
have sm := pmap_all_some hm; have sb := pmap_all_some hb'.
binv h ct' ect h'.
have hsm : (size (pmap id msgs) <= size (ek_y1 ek))%N by rewrite sm.
have [hsh [ehs h0 ect']] := encrypt_with_rE hp hr hsm ect; move: h'; rewrite ect' ehs; cbn [bind].
rewrite (gexpE hp); last lia.
cbn [deref bind]; rewrite (compute_eE hp) //; try lia; last by rewrite size_map sb -hsz.
cbn [bind]; rewrite /compute_v (expE hp) // (mulE hp); cbn [bind]; rewrite (expE hp); last lia.
cbn [deref bind] => h; binv h c' ec h'.
have hc0 : 0 <= c' by move: ec; rewrite /fiat_shamir; case: nonce {ect ehs} => // nn; apply: hash_nonneg.
case: h' => <- <-; cbn [cp_c] => -[E] hcr; subst c'.
have es : schnorr (ek_group ek) rb c r = rb - c * r.
  by rewrite /schnorr (gd_n2 hp) Z.mod_small //; nia.
rewrite es; apply: (verify_core hp hy2 hy3 hr hrb h0 hc0 erefl erefl erefl erefl erefl _ _ ehs ec).
  by rewrite size_map size_zip sb sm -hsz minnn.
by apply: (ver_loopE hp) => //; rewrite ?sm ?sb.
Qed.

(** Finding: the number of components checked is that of the proof, not that of the ciphertext.  With an empty
    response list a proof is accepted for a ciphertext with arbitrary components e. *)
Theorem C58_unproved_components_refuted ek n nonce e r rb :
  (forall s, exists z, hash s = Ok z) ->
  good (ek_group ek) n -> all (fun y => Z.gcd y (n * n) =? 1) [:: ek_y2 ek, ek_y3 ek & ek_y1 ek] ->
  0 <= r -> 0 <= rb -> (0 < size e)%N ->
  exists u v c, verify_encrypt_proof hash ek (Some nonce) (Some (CT (Some u) (Some v) (Some e)))
     (Some (CP (Some c) (Some (rb - c * r)) (Some [::]))) = Ok tt.
Proof.
move=> ht hp /=/and3P[/Z.eqb_eq hy2 /Z.eqb_eq hy3 hy1] hr hrb hse.
pose N := n * n; pose u := p_g (ek_group ek) ^ r mod N.
have [hs ehs] : exists hs, group_hash hash (Some u) e (Some nonce) = Ok hs.
  by rewrite /group_hash; case: (e) hse => // x s _; apply: ht.
have h0 := group_hash_nonneg ehs.
pose a := (ek_y2 ek * (ek_y3 ek ^ hs mod N)) mod N; pose v := cs_abs (ek_group ek) (a ^ r mod N).
have [c ec] : exists c, fiat_shamir hash ek (Some nonce) u v e (p_g (ek_group ek) ^ (2 * rb) mod N) (a ^ (2 * rb) mod N) [::] = Ok c.
  by rewrite /fiat_shamir; apply: ht.
have hc : 0 <= c by apply: hash_nonneg ec.
exists u, v, c; apply: (@verify_core ek n (Some nonce) u v e hs c r rb [::] _ _ _ [::] hp hy2 hy3 hr hrb h0 hc erefl erefl erefl erefl erefl _ _ ehs ec) => //.
Qed.

(** Finding: a proof with more responses than the ciphertext has components makes verification panic. *)
Theorem C58_long_proof_panics ek nonce u v e c r m :
  (size e < size m <= size (ek_y1 ek))%N ->
  verify_encrypt_proof hash ek nonce (Some (CT (Some u) (Some v) (Some e))) (Some (CP (Some c) (Some r) (Some m))) = Panic.
Proof.
move=> /andP[h1 h2]; rewrite /verify_encrypt_proof ltnNge h2 /=.
have np a b : cs_mul (ek_group ek) a b <> Err by rewrite /cs_mul; case: a; case: b.
case E: (cs_mul _ _ _) => [tu||] //; last by case: (np _ _ E).
cbn [bind]; have -> : ver_loop (ek_group ek) (ek_y1 ek) e m (2 * c) (2 * r) = Panic; last by [].
elim: m e (ek_y1 ek) h1 {h2} => [|x m IH] [|y e] [|z ys] //= hs.
case E1: (cs_mul _ _ _) => [w||] //; last by case: (np _ _ E1).
cbn [bind]; case E2: (cs_mul _ _ _) => [w'||] //; last by case: (np _ _ E2).
by cbn [bind]; rewrite IH.
Qed.

(** Finding: serialising a proof drops the signs of its responses; it survives exactly when none is negative ... *)
Theorem C58_proof_codec_iff c r m :
  proof_of_bytes (proof_bytes (c, r, m)) = (c, r, m) <-> 0 <= c /\ 0 <= r /\ all (Z.leb 0) m.
Proof.
have E z : Z.of_nat (be_val (zbytes z)) = Z.abs z by rewrite /zbytes be_bytesK Zabs2Nat.id_abs.
rewrite /proof_of_bytes /proof_bytes /= !E; split.
  case=> hc hr hm; split; first lia; split; first lia.
  elim: m hm => //= x m IH []; rewrite E => h /IH ->; rewrite andbT; apply/Z.leb_le; lia.
case=> hc [hr hm]; rewrite !Z.abs_eq //; congr (_, _, _).
by elim: m hm => //= x m IH /andP[/Z.leb_le h /IH ->]; rewrite E Z.abs_eq.
Qed.

(** ... while the honest response for blinding b and message m is negative exactly when b < challenge * m; *)
Theorem C58_response_sign pg n b c m : good pg n -> 0 <= c * m < n * n ->
  schnorr pg b c m < 0 <-> b < c * m.
Proof. by move=> hp h; rewrite /schnorr (gd_n2 hp) Z.mod_small //; lia. Qed.

(** and (finding) since the blinding is below n/2, a response pins challenge * m down to an interval of that size:
    the leading bits of every message that is not much shorter than n are public. *)
Theorem C58_response_leaks pg n b c m : good pg n -> 0 <= c * m < n * n -> 0 <= b < p_nd4 pg ->
  let s := schnorr pg b c m in - s <= c * m < - s + n / 2.
Proof. by move=> hp h hb s; rewrite /s /schnorr (gd_n2 hp) Z.mod_small //; move: hb; rewrite (gd_nd4 hp); lia. Qed.

(** ** Group serialisation *)
Theorem C58_group_roundtrip p q gt pg : usable p q gt -> 0 < p -> 0 < q -> new_group p q gt = Ok pg ->
  unmarshal_group (marshal_group pg).1 (marshal_group pg).2 = Ok pg.
Proof.
move=> [h1 [h2 h3]] hp hq; rewrite /new_group; lazy zeta.
case E: (mod_inverse _ _) => [t|] //; rewrite big_exp_nonneg; last by nia.
cbn [deref bind] => -[<-]; rewrite /unmarshal_group /marshal_group; cbn [p_n p_g fst snd].
rewrite !be_bytesK !Zabs2Nat.id_abs !Z.abs_eq; try nia; last by case: (Z.mod_pos_bound (gt ^ (2 * (p * q * (p * q)))) (p * q * (p * q)) ltac:(nia)).
by case: Z.eqb_spec => [|_]; [lia|rewrite E].
Qed.

(** Finding: unmarshalling a group with an even modulus panics. *)
Theorem C58_even_modulus_panics bn bg : ~~ odd (be_val bn) -> unmarshal_group bn bg = Panic.
Proof.
move=> h; rewrite /unmarshal_group; set k := be_val bn in h *.
case: Z.eqb_spec => // hk; case E: (mod_inverse _ _) => [t|] //; exfalso.
have hk1 : 0 < Z.of_nat k by lia.
have [_ [hw _]] := @mod_inverse_some 2 (Z.of_nat k) t hk1 E.
have [j ej] : exists j, k = (2 * j)%N by exists k./2; rewrite -{1}(odd_double_half k) (negbTE h) add0n -mul2n.
have e := Z_div_mod_eq_full (2 * t) (Z.of_nat k); rewrite hw Z.mod_1_l in e; last by lia.
move: (2 * t / Z.of_nat k) e => w; rewrite ej => e.
have e2 : Z.of_nat (2 * j)%N = 2 * Z.of_nat j by rewrite -multE Nat2Z.inj_mul.
by rewrite e2 in e; lia.
Qed.
End Props.

Print Assumptions C58_decrypt_encrypt.
Print Assumptions C58_roundtrip.
Print Assumptions C58_range_check_refuted.
Print Assumptions C58_encrypt_rejects.
Print Assumptions C58_decrypt_sound.
Print Assumptions C58_decrypt_panics.
Print Assumptions C58_proof_complete.
Print Assumptions C58_unproved_components_refuted.
Print Assumptions C58_long_proof_panics.
Print Assumptions C58_proof_codec_iff.
Print Assumptions C58_response_sign.
Print Assumptions C58_response_leaks.
Print Assumptions C58_group_roundtrip.
Print Assumptions C58_even_modulus_panics.

(** A concrete run: p = 3, q = 5, two messages of which one is negative, a toy hash. *)
Definition toy_hash (s : seq bytes) : outcome Z := Ok (Z.of_nat (Nat.modulo (sumn (flatten s)) 5).+1).
Definition toy_run (msgs : seq Z) :=
  do pg <- new_group 3 5 2;
  do (ek, dk) <- new_keys pg [:: 3; 4; 5] 6 7;
  do (ct, pf) <- encrypt_and_prove toy_hash ek (Some [:: 1%N]) [seq Some m | m <- msgs] [seq Some (Z.of_nat i.+2) | i <- iota 0 (size msgs)] 4 5;
  do ms <- cs_decrypt toy_hash dk (Some [:: 1%N]) (Some ct);
  do _ <- verify_encrypt_proof toy_hash ek (Some [:: 1%N]) (Some ct) (Some pf);
  Ok ms.
Example C58_hyps : toy_run [:: 11; -3; 15] = Ok [:: 11; 12; 0].
Proof. by vm_compute. Qed.
Example C58_usable : usable 3 5 2.
Proof. by split. Qed.
(** the panicking ciphertext (15, 15, [1]) *)
Example C58_panic_hyps :
  (do pg <- new_group 3 5 2;
   do (ek, dk) <- new_keys pg [:: 3; 4; 5] 6 7;
   cs_decrypt toy_hash dk (Some [:: 1%N]) (Some (CT (Some 15) (Some 15) (Some [:: 1])))) = Panic.
Proof. by vm_compute. Qed.
