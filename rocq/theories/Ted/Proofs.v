From mathcomp Require Import all_ssreflect all_algebra zify.
From Verif Require Import Lib.Res Lib.Bytes Lib.Lagrange Sharing.Proofs SharingV1.Model
  SharingV1.Proofs Ted.Model.
Set Implicit Arguments.
Unset Strict Implicit.
Unset Printing Implicit Defensive.
Import GRing.Theory.
Local Open Scope ring_scope.

(* 8-bit facts, by exhaustion of the 256 bytes *)
Lemma byte_all (P : nat -> bool) : all P (iota 0 256) -> forall x, (x < 256)%N -> P x.
Proof. by move=> /allP h x hx; apply: h; rewrite mem_iota. Qed.

Lemma land224 x : (x < 32)%N -> Nat.land x 224 = 0%N.
Proof.
move=> hx; have : all (fun x => Nat.land x 224 == 0%N) (iota 0 32) by vm_compute.
by move/allP/(_ x); rewrite mem_iota => /(_ hx)/eqP.
Qed.

Lemma pow_lt : (2 ^ 253 < 256 ^ 32)%N.
Proof.
have e : (256 = 2 ^ 8)%N by [].
rewrite [X in (_ < X ^ _)%N]e -expnM ltn_exp2l; last by [].
by vm_compute.
Qed.

Lemma pow_split : (32 * 256 ^ 31 = 2 ^ 253)%N.
Proof.
have e : (256 = 2 ^ 8)%N by [].
have e' : (32 = 2 ^ 5)%N by [].
rewrite [X in (X * _)%N]e' [X in (_ * X ^ _)%N]e -expnM -expnD.
exact: (congr1 (expn 2) (erefl : (5 + 8 * 31 = 253)%N)).
Qed.

Section P.
Variable p : nat.
Hypothesis pp : prime p.
Let F := [fieldType of 'F_p].

Lemma combine1_poly s (f : {poly 'F_p}) (l : seq nat) :
  (s1_limit s < p)%N -> (size f <= s1_threshold s)%N -> (s1_threshold s <= size l)%N ->
  uniq l -> all (fun i => (0 < i <= s1_limit s)%N) l ->
  combine1 s [seq Some (Share1 i f.[i%:R]) | i <- l] = Ok (be_bytes (val f.[0])).
Proof.
move=> lp sf tl ul /allP va; rewrite /combine1 size_map ltnNge tl /= -map_take.
set l' := take _ l; have sl' : size l' = s1_threshold s by rewrite size_takel.
have ul' : uniq l' by rewrite take_uniq.
have va' i : i \in l' -> (0 < i <= s1_limit s)%N by move=> /mem_take /va.
rewrite (map_comp Some (fun i => Share1 i f.[i%:R])) collect1E //.
have -> : all (valid_id (s1_limit s)) [seq Share1 i f.[i%:R] | i <- l'].
  by rewrite all_map; apply/allP => i /va' /andP [a b]; rewrite /valid_id /= a b.
rewrite [bind (Ok _) _]/=.
have -> : [seq ((s1_id s0)%:R : 'F_p) | s0 <- [seq Share1 i f.[i%:R] | i <- l']] = [seq i%:R | i <- l'].
  by rewrite -map_comp.
have -> : [seq s1_val s0 | s0 <- [seq Share1 i f.[i%:R] | i <- l']] = [seq f.[i%:R] | i <- l'].
  by rewrite -map_comp.
rewrite interpolate1E ?size_map //.
have ux : uniq [seq (i%:R : 'F_p) | i <- l'].
  rewrite map_inj_in_uniq // => i j /va' /andP [_ hi] /va' /andP [_ hj].
  by apply: (natr_inj pp); apply: leq_ltn_trans lp.
set xs := map _ l' in ux *.
rewrite ux [bind (Ok _) _]/=; congr (Ok (be_bytes (val _))).
have xinj : injective (fun i : 'I_(size xs) => nth 0 xs i).
  by move=> i j /eqP; rewrite nth_uniq // => /eqP/val_inj.
have sxs : size xs = size l' by rewrite size_map.
have sP : (size f <= size xs)%N by rewrite sxs sl'.
rewrite (@lagrange_at0 F _ _ xinj _ sP) -sxs.
apply: eq_bigr => i _; rewrite prodf_div; congr (_ * _).
have hi : (i < size l')%N by rewrite -sxs.
by rewrite /xs !(nth_map 0%N).
Qed.

(* --- scalar codecs --- *)
Hypothesis p253 : (p <= 2 ^ 253)%N.
Let p32 : (p < 256 ^ 32)%N.
Proof. exact: leq_ltn_trans p253 pow_lt. Qed.

Lemma val_lt (s : 'F_p) : (val s < p)%N.
Proof. by have := ltn_ord s; rewrite [in X in (_ < X)%N -> _]Fp_cast. Qed.

Lemma natr_val (s : 'F_p) : ((val s)%:R : 'F_p) = s.
Proof. exact: natr_Zp. Qed.

Lemma size_ebytes (s : 'F_p) : (size (ebytes s) <= 32)%N.
Proof. by apply: size_be_bytes; apply: ltn_trans p32; apply: val_lt. Qed.

Lemma canonical_ebytes (s : 'F_p) : set_canonical p (copy_into 32 (rev (ebytes s))) = Ok s.
Proof.
rewrite /set_canonical size_copy_into le_val_copy ?size_rev ?size_ebytes // /le_val revK be_bytesK.
by rewrite val_lt natr_val.
Qed.

Lemma canonical_sbytes (s : 'F_p) : set_canonical p (sbytes s) = Ok s.
Proof.
have h : (val s < 256 ^ 32)%N := ltn_trans (val_lt s) p32.
by rewrite /set_canonical /sbytes size_le_bytes (le_bytesK h) val_lt natr_val.
Qed.

Lemma copy_size k b : size b = k -> copy_into k b = b.
Proof. by move=> h; rewrite copy_intoE h ?subnn ?cats0. Qed.

(* the value that VerifyVSS uses in place of the power [n] *)
Definition swapped (n : nat) : nat := le_val (be_bytes n).

Lemma canonical_swapped (s : 'F_p) :
  set_canonical p (copy_into 32 (ebytes s)) =
  if (swapped (val s) < p)%N then Ok (swapped (val s))%:R else Err.
Proof. by rewrite /set_canonical size_copy_into le_val_copy ?size_ebytes. Qed.

Lemma swapped_small n : (n < 256)%N -> swapped n = n.
Proof.
case: n => [//|n] h; rewrite /swapped /be_bytes /= divn_small // modn_small //.
have -> : be_bytes_fuel n 0 = [::] by case: (n).
by rewrite le_val_cons muln0 addn0.
Qed.

Section Grp.
Variables (G : lmodType 'F_p) (g : G).
Hypothesis gok : forall a : 'F_p, a *: g = 0 -> a = 0.

Lemma g_inj (a b : 'F_p) : a *: g = b *: g -> a = b.
Proof.
by move=> h; apply/eqP; rewrite -subr_eq0; apply/eqP/gok; rewrite scalerBl h subrr.
Qed.

Lemma commit_allE (cs : seq 'F_p) : commit_all g cs = Ok [seq c *: g | c <- cs].
Proof. by elim: cs => //= c cs IH; rewrite canonical_ebytes /= IH. Qed.

(* powers actually used by VerifyVSS *)
Definition pw (x : nat) (j : nat) : nat := (x ^ j %% p)%N.

Lemma vss_loopE (x : nat) (cs : seq 'F_p) k rhs :
  (forall j, (k < j <= k + size cs)%N -> (swapped (pw x j) < p)%N) ->
  vss_loop (x%:R : 'F_p) (x%:R ^+ k) rhs [seq c *: g | c <- cs] =
  Ok (rhs + (\sum_(j < size cs) nth 0 cs j * (swapped (pw x (k + j.+1)))%:R) *: g).
Proof.
elim: cs k rhs => [|c cs IH] k rhs h /=; first by rewrite big_ord0 scale0r addr0.
rewrite -exprSr canonical_swapped.
have ev : val ((x%:R : 'F_p) ^+ k.+1) = pw x k.+1.
  by rewrite -natrX /= val_Fp_nat.
rewrite ev h /=; last by lia.
rewrite IH => [|j hj]; last by apply: h => /=; lia.
congr Ok; rewrite big_ord_recl /= -addrA scalerA -scalerDl addn1 (mulrC _ c).
congr (_ + (_ + _) *: g); apply: eq_bigr => j _; congr (_ * (swapped (pw x _))%:R).
by rewrite /bump /= ; lia.
Qed.

Theorem verify_vssE t id (v : 'F_p) (cs : seq 'F_p) :
  (t <= size cs)%N -> (0 < size cs)%N -> (id < p)%N ->
  (forall j, (0 < j < size cs)%N -> (swapped (pw id j) < p)%N) ->
  verify_vss g t (Share1 id v) [seq c *: g | c <- cs] =
  Ok (v == \sum_(j < size cs) nth 0 cs j * (swapped (pw id j))%:R).
Proof.
move=> ts c0 idp sw; rewrite /verify_vss size_map ltnNge ts /= /new_element idp /=.
case: cs ts c0 sw => [//|c cs] ts _ sw /=.
have := @vss_loopE id cs 0 (c *: g); rewrite expr0 add0n => -> ; last first.
  by move=> j /andP [a b]; apply: sw; rewrite /= a ltnS.
rewrite /= canonical_ebytes /=; congr Ok.
rewrite big_ord_recl /= -scalerDl.
have -> : pw id 0 = 1%N by rewrite /pw expn0 modn_small // prime_gt1.
rewrite swapped_small // mulr1.
by apply/eqP/eqP => [/g_inj -> | ->].
Qed.

Theorem verify_vss_err t id (v : 'F_p) (cs : seq 'F_p) j :
  (t <= size cs)%N -> (id < p)%N -> (0 < j < size cs)%N -> (p <= swapped (pw id j))%N ->
  verify_vss g t (Share1 id v) [seq c *: g | c <- cs] = Err.
Proof.
move=> ts idp hj sw; rewrite /verify_vss size_map ltnNge ts /= /new_element idp /=.
case: cs ts hj => [|c cs] ts hj /=; first by rewrite ltn0 andbF in hj.
suff H : forall k rhs, (k < j <= k + size cs)%N ->
    vss_loop (id%:R : 'F_p) (id%:R ^+ k) rhs [seq c *: g | c <- cs] = Err.
  by rewrite -(expr0 (id%:R : 'F_p)) H //=; move: hj => /=; lia.
elim: cs {ts hj} => [|c' cs IH] k rhs hk /=; first by move: hk => /=; lia.
rewrite -exprSr canonical_swapped.
have ev : val ((id%:R : 'F_p) ^+ k.+1) = pw id k.+1.
  by rewrite -natrX /= val_Fp_nat.
rewrite ev; case: (eqVneq j k.+1) => [e|ne]; first by rewrite -e ltnNge sw.
case: ifP => _ //=; rewrite IH //; move: hk => /=; lia.
Qed.

Variables (penc : G -> bytes) (pdec : bytes -> option G) (hash64 : bytes -> bytes).
Hypothesis pencK : forall P, pdec (penc P) = Some P.
Hypothesis psize : forall P, size (penc P) = 32%N.
Hypothesis hsize : forall b, size (hash64 b) = 64%N.

Definition chal (R pub msg : bytes) : 'F_p := (le_val (hash64 (R ++ pub ++ msg)))%:R.

Lemma threshold_signE (k r : 'F_p) pub msg R : k != 0 -> r != 0 -> size R = 32%N ->
  threshold_sign p hash64 (rev (ebytes k)) pub msg (rev (ebytes r)) R =
  Ok (R ++ sbytes (chal R pub msg * k + r)).
Proof.
have sz (x : 'F_p) : x != 0 -> (size (rev (ebytes x)) == 0)%N || (32 < size (rev (ebytes x)))%N = false.
  move=> nx; rewrite size_rev be_bytes_nil (ltnNge 32) size_ebytes orbF.
  by apply: contraNF nx => /eqP e; rewrite -(natr_val x) e.
move=> nk nr sR; rewrite /threshold_sign !sz // /set_wide hsize eqxx !canonical_ebytes.
by rewrite copy_intoE ?sR // take_cat sR ltnn subnn take0 cats0.
Qed.

Lemma threshold_sign_zero (k r : 'F_p) pub msg R : (k == 0) || (r == 0) ->
  threshold_sign p hash64 (rev (ebytes k)) pub msg (rev (ebytes r)) R = Panic.
Proof.
rewrite /threshold_sign !size_rev !be_bytes_nil => /orP [] /eqP -> //=.
by case: ifP.
Qed.

Lemma le_val_sbytes (s : 'F_p) : le_val (sbytes s) = val s.
Proof. exact: (le_bytesK (ltn_trans (val_lt s) p32)). Qed.

Lemma sbytesE (s : 'F_p) : copy_into 32 (rev (ebytes s)) = sbytes s.
Proof.
have e : le_val (copy_into 32 (rev (ebytes s))) = val s.
  by rewrite le_val_copy ?size_rev ?size_ebytes // /le_val revK be_bytesK.
have b : is_bytes (copy_into 32 (rev (ebytes s))).
  rewrite copy_intoE ?size_rev ?size_ebytes // /is_bytes all_cat all_rev all_nseq orbT andbT.
  exact: is_bytes_be.
by have := le_valK b; rewrite size_copy_into e.
Qed.

Lemma sig_sharesE (R : bytes) (h : nat -> 'F_p) (l : seq nat) : size R = 32%N ->
  sig_shares p [seq PSig i (R ++ sbytes (h i)) | i <- l] = Ok [seq Share1 i (h i) | i <- l].
Proof.
move=> sR; elim: l => //= i l ->.
rewrite drop_size_cat // /element_from_bytes -/(le_val _) le_val_sbytes /new_element val_lt /=.
by rewrite natr_val.
Qed.

Lemma aggregateE t n (R : bytes) (h : {poly 'F_p}) (l : seq nat) :
  (2 <= t <= n)%N -> (n < 2 ^ 32)%N -> (n < p)%N -> size R = 32%N -> (size h <= t)%N ->
  uniq l -> (t <= size l)%N -> all (fun i => (0 < i <= n)%N) l ->
  aggregate p t n [seq PSig i (R ++ sbytes h.[i%:R]) | i <- l] = Ok (R ++ sbytes h.[0]).
Proof.
move=> /andP [t2 tn] n32 np sR sh ul tl va; rewrite /aggregate.
case: l ul tl va => [|i l] ul tl va; first by rewrite leqn0 in tl; rewrite (eqP tl) in t2.
rewrite (sig_sharesE (fun i => h.[i%:R])) //.
rewrite [map (fun i => PSig _ _) (i :: l)]/=; cbv beta iota; rewrite [ps_sig (PSig i _)]/=.
have r0 : take 32 (R ++ sbytes h.[i%:R]) = R by rewrite take_size_cat.
rewrite r0 all_map.
have -> : all (preim (fun i : nat => PSig i (R ++ sbytes h.[i%:R]))
  (fun s => take 32 (ps_sig s) == R)) l by apply/allP => j _ /=; rewrite take_size_cat.
rewrite [negb _]/=; cbv iota; rewrite /new_shamir1 ltnNge tn ltnNge t2; cbv [negb]; rewrite [bind (Ok (Shamir1 _ _)) _]/=.
have [e1 e2] : u32 t = t /\ u32 n = n by rewrite /u32 (modn_small n32) (modn_small (leq_ltn_trans tn n32)).
rewrite e1 e2 -[Some _ :: _]/(map Some (map (fun i => Share1 i h.[i%:R]) (i :: l))) -map_comp.
rewrite combine1_poly //= -/(ebytes _) sbytesE.
by rewrite copy_intoE sR // subnn cats0.
Qed.

Lemma nth_le_bytes k n i : (i < k)%N -> nth 0%N (le_bytes k n) i = (n %/ 256 ^ i %% 256)%N.
Proof.
elim: k n i => [//|k IH] n [|i] hi /=; first by rewrite expn0 divn1.
by rewrite IH // expnS divnMA.
Qed.

Lemma top_byte (s : 'F_p) : (nth 0%N (sbytes s) 31 < 32)%N.
Proof.
rewrite nth_le_bytes; last by [].
apply: leq_ltn_trans (leq_mod _ _) _; rewrite ltn_divLR; last by rewrite expn_gt0.
by rewrite pow_split; apply: leq_trans (val_lt s) p253.
Qed.

Lemma size_sbytes (s : 'F_p) : size (sbytes s) = 32%N.
Proof. exact: size_le_bytes. Qed.

Lemma verify_head (a : 'F_p) (R : bytes) s msg : size R = 32%N ->
  let pub := penc (a *: g) in
  verify g penc pdec hash64 pub msg (R ++ sbytes s) =
  Ok (R == penc ((s - chal R pub msg * a) *: g)).
Proof.
move=> sR pub; rewrite /verify psize eqxx size_cat sR size_sbytes eqxx.
rewrite nth_cat sR (land224 (top_byte s)) pencK take_size_cat // drop_size_cat //.
rewrite /set_wide hsize eqxx copy_size ?size_sbytes // canonical_sbytes.
congr Ok; congr (_ == penc _).
by rewrite -/(chal R pub msg) scalerN scalerA scalerBl addrC.
Qed.

Lemma verifyE (a r : 'F_p) msg :
  let R := penc (r *: g) in let pub := penc (a *: g) in
  verify g penc pdec hash64 pub msg (R ++ sbytes (chal R pub msg * a + r)) = Ok true.
Proof.
by move=> R pub; rewrite verify_head ?psize // addrC addKr eqxx.
Qed.

(* --- key generation and the plain signature --- *)
Hypothesis hbytes : forall b, is_bytes (hash64 b).

Lemma nth_byte b i : is_bytes b -> (nth 0%N b i < 256)%N.
Proof.
by move=> hb; case: (ltnP i (size b)) => h; [apply: (allP hb); apply: mem_nth | rewrite nth_default].
Qed.

Lemma size_expand seed : size (expand_seed hash64 seed) = 32%N.
Proof. by rewrite /expand_seed size_takel // !size_set_nth hsize. Qed.

Lemma nth_expand seed i : (i < 32)%N -> nth 0%N (expand_seed hash64 seed) i =
  let d := hash64 seed in
  if i == 31%N then Nat.lor (Nat.land (nth 0%N d 31) 127) 64
  else if i == 0%N then Nat.land (nth 0%N d 0) 248 else nth 0%N d i.
Proof.
move=> hi; rewrite /expand_seed nth_take // !nth_set_nth /=.
case: (i =P 31%N) => [_|/eqP/negbTE ni] //=.
by rewrite nth_set_nth /= ni nth_set_nth.
Qed.

Lemma nth_clamp b i : nth 0%N (clamp b) i =
  if i == 31%N then Nat.lor (Nat.land (nth 0%N b 31) 63) 64
  else if i == 0%N then Nat.land (nth 0%N b 0) 248 else nth 0%N b i.
Proof. by rewrite /clamp !nth_set_nth /= !nth_set_nth /=; case: eqP. Qed.

Lemma size_clamp b : size b = 32%N -> size (clamp b) = 32%N.
Proof. by move=> h; rewrite /clamp !size_set_nth h. Qed.

Lemma bit_facts x : (x < 256)%N ->
  [&& Nat.land (Nat.land x 248) 248 == Nat.land x 248,
      Nat.lor (Nat.land (Nat.lor (Nat.land x 127) 64) 63) 64 == Nat.lor (Nat.land x 127) 64 &
      Nat.lor (Nat.land (Nat.lor (Nat.land x 63) 64) 63) 64 == Nat.lor (Nat.land x 127) 64].
Proof. by move: x; apply: byte_all; vm_compute. Qed.

Lemma clamp_expand seed : clamp (expand_seed hash64 seed) = expand_seed hash64 seed.
Proof.
apply: (@eq_from_nth _ 0%N); rewrite ?size_clamp ?size_expand // => i hi.
rewrite nth_clamp !nth_expand //=.
have /and3P [/eqP e1 _ _] := bit_facts (nth_byte 0 (hbytes seed)).
have /and3P [_ /eqP e2 _] := bit_facts (nth_byte 31 (hbytes seed)).
by case: (i =P 31%N) => // _; case: (i =P 0%N).
Qed.

Definition skey seed : 'F_p := (le_val (expand_seed hash64 seed))%:R.

Lemma new_keyE seed : size seed = 32%N ->
  new_key_from_seed g penc hash64 seed = Ok (seed ++ penc (skey seed *: g)).
Proof.
move=> ss; rewrite /new_key_from_seed ss copy_size ?size_expand // /set_clamping size_expand /=.
by rewrite clamp_expand.
Qed.

Lemma generate_sharable_keyE seed : size seed = 32%N ->
  generate_sharable_key g penc hash64 seed = Ok (penc (skey seed *: g), ebytes (skey seed)).
Proof.
move=> ss; rewrite /generate_sharable_key new_keyE // [bind (Ok _) _]/=.
by rewrite take_size_cat // drop_size_cat // copy_size ?psize.
Qed.

Lemma sign_verify seed msg priv sig : size seed = 32%N ->
  new_key_from_seed g penc hash64 seed = Ok priv ->
  sign g penc hash64 priv msg = Ok sig ->
  verify g penc pdec hash64 (drop 32 priv) msg sig = Ok true.
Proof.
move=> ss; rewrite new_keyE // => -[<-]; rewrite /sign size_cat ss psize /=.
rewrite take_size_cat // drop_size_cat // /set_wide !hsize /=.
set d := hash64 seed; set e := set_nth _ _ _ _.
have se : size e = 32%N by rewrite /e !size_set_nth size_copy_into.
have ee : clamp e = expand_seed hash64 seed.
  have cd i : (i < 32)%N -> nth 0%N (copy_into 32 d) i = nth 0%N d i.
    by move=> hi; rewrite /copy_into nth_take // nth_cat hsize (ltn_trans hi).
  apply: (@eq_from_nth _ 0%N); rewrite ?size_clamp ?size_expand // => i hi.
  rewrite nth_clamp nth_expand //= /e !nth_set_nth /= !nth_set_nth /= !cd //.
  have /and3P [/eqP e1 _ _] := bit_facts (nth_byte 0 (hbytes seed)).
  have /and3P [_ _ /eqP e3] := bit_facts (nth_byte 31 (hbytes seed)).
  case: (i =P 31%N) => // h31; case: (i =P 0%N) => [_|/eqP/negbTE h0].
    by rewrite nth_set_nth /= e1.
  by rewrite nth_set_nth /= h0 cd.
rewrite hsize /= /set_clamping se /= ee -/(skey seed) => -[<-].
exact: verifyE.
Qed.

Lemma split_tedE t n secret rnd : (2 <= t <= n)%N -> (n < 2 ^ 32)%N -> (n < p)%N ->
  (0 < size secret)%N -> (be_val secret < p)%N ->
  let cs := (be_val secret)%:R :: mkseq rnd t.-1 in
  split_ted g t n secret rnd = Ok ([seq c *: g | c <- cs], [seq mk1 cs i | i <- iota 0 n]).
Proof.
move=> /andP [t2 tn] n32 np s0 sp cs.
rewrite /split_ted /new_shamir1 ltnNge tn ltnNge t2; cbv [negb]; rewrite [bind (Ok _) _]/=.
rewrite /u32 (modn_small n32) (modn_small (leq_ltn_trans tn n32)) /get_shares_and_poly.
rewrite (gtn_eqF s0) sp /= /new_element sp /=.
have -> : new_poly (be_val secret)%:R t rnd = Ok cs by rewrite /cs; case: (t) t2.
rewrite [bind (Ok _) _]/=.
rewrite make_shares1E // => [|i]; last first.
  by rewrite mem_iota add0n => /andP [_ hi]; apply: leq_ltn_trans np.
by cbv [bind]; cbn [fst snd]; rewrite commit_allE.
Qed.
End Grp.

Lemma be_ebytes (s : 'F_p) : be_val (ebytes s) = val s.
Proof. exact: be_bytesK. Qed.
End P.
