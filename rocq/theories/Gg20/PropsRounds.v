(** C38: the round discipline of a GG20 signer over every sequence of calls. *)
From mathcomp Require Import all_ssreflect all_algebra zify.
From Verif Require Import Lib.Res Lib.Bytes Core.HashModel Gennaro.Model Paillier.Model Gg20.SignModel Gg20.SignProofs.
Set Implicit Arguments. Unset Strict Implicit. Unset Printing Implicit Defensive.
Import GRing.Theory.
Local Open Scope ring_scope.

(** one call of a method of the signer with arbitrary arguments *)
Inductive call (F : fieldType) (G : lmodType F) (zk : Type) :=
| Call1 of F & F & option bytes & nat & (nat -> nat)
| Call2 of seq (nat * option (bcast1 zk)) & seq (nat * zk) & (nat -> draw2)
| Call3 of seq (nat * option (p2p2 zk))
| Call4 of seq (nat * option (option F))
| Call5 of seq (nat * option (option witness)) & (nat -> nat)
| Call6 of bytes & seq (nat * option (bcast5 G zk)) & seq (nat * zk)
| CallOut of seq (nat * option (option F)).

(** the number of the method, and the ids in the maps it got *)
Definition number F G zk (c : @call F G zk) : nat :=
  match c with Call1 _ _ _ _ _ => 1 | Call2 _ _ _ => 2 | Call3 _ => 3 | Call4 _ => 4 | Call5 _ _ => 5 | Call6 _ _ _ => 6 | CallOut _ => 7 end.
Definition ids F G zk (c : @call F G zk) : option (seq nat) :=
  match c with Call1 _ _ _ _ _ => None | Call2 l _ _ => Some (map fst l) | Call3 l => Some (map fst l) | Call4 l => Some (map fst l)
  | Call5 l _ => Some (map fst l) | Call6 _ l _ => Some (map fst l) | CallOut l => Some (map fst l) end.

Section S.
Variables (F : fieldType) (G : lmodType F) (g : G) (q : nat) (val : F -> nat) (xc : G -> nat) (yodd : G -> bool)
  (penc : G -> bytes) (pdec : bytes -> option G) (H : bytes -> bytes) (blk : nat) (zk : Type) (Z : zkf F G zk).

(** the state after the call, and whether it succeeded.  A panic that the caller recovers from leaves the
    state as it is at that point. *)
Definition step (c : conf G) (s : st G) (x : call G zk) : st G * bool :=
  match x with
  | Call1 k gm cr r rnd => let p := round1 g val penc H blk Z c s k gm cr r rnd in (p.1, is_ok p.2)
  | Call2 l p2p dr => let p := round2 val Z c s l p2p dr in (p.1, is_ok p.2)
  | Call3 l => let p := round3 Z c s l in (p.1, is_ok p.2)
  | Call4 l => let p := round4 c s l in (p.1, is_ok p.2)
  | Call5 l rnd => let p := round5 g pdec H blk Z c s l rnd in (p.1, is_ok p.2)
  | Call6 h l p2p => let p := round6 g q xc Z c s h l p2p in (p.1, is_ok p.2)
  | CallOut l => (s, is_ok (sign_output q val xc yodd c s l))
  end.

(** the methods that succeeded, in order, and the final state *)
Fixpoint session (c : conf G) (s : st G) (l : seq (call G zk)) : st G * seq nat :=
  match l with
  | [::] => (s, [::])
  | x :: r => let p := step c s x in let t := session c p.1 r in
              (t.1, if p.2 then number x :: t.2 else t.2)
  end.

Lemma step_ok c s x s' : step c s x = (s', true) ->
  [/\ s_round s = number x, s_round s' = minn (number x).+1 7 &
     forall K, ids x = Some K -> forall j, j != c_id c -> (j \in K) = (j \in c_cosigners c)].
Proof.
have V rd K u : verify_state_map c s rd K = Ok u ->
    s_round s = rd /\ forall j, j != c_id c -> (j \in K) = (j \in c_cosigners c).
  case: u => /vsm_ok [h1 h2 h3]; split=> // j ne; apply/idP/idP => h; [exact: h2|exact: h3].
case: x => [k gm cr r rnd|l p2p dr|l|l|l rnd|h l p2p|l] /=.
- rewrite /round1; case: eqP => //= hr; case: (bind _ _) => [[[y b] p]||] //= [<-]; by split.
- rewrite /round2; case E: (bind _ _) => [[x1 B]||] //=; binv E u1 ev E1; have [h1 h2] := V _ _ _ ev.
  case: (loop2 _ _ _ _ _ _ _ _ _ _) => acc [out||] //= [<-]; split=> // K [<-]; exact: h2.
- rewrite /round3; case E: (bind _ _) => [[x1 B]||] //= [<-]; binv E u1 ev E1; have [h1 h2] := V _ _ _ ev.
  split=> // K [<-]; exact: h2.
- rewrite /round4; case E: (bind _ _) => [[x1 B]||] //= [<-]; binv E u1 ev E1; have [h1 h2] := V _ _ _ ev.
  split=> // K [<-]; exact: h2.
- rewrite /round5; case E: (bind _ _) => [[[[R Rb] pf] pp]||] //= [<-]; binv E u1 ev E1; have [h1 h2] := V _ _ _ ev.
  split=> // K [<-]; exact: h2.
- rewrite /round6; case E: (bind _ _) => [si||] //= [<-]; binv E u1 ev E1; have [h1 h2] := V _ _ _ ev.
  split=> // K [<-]; exact: h2.
rewrite /sign_output; case E: (bind _ _) => [si||] //= [<-]; binv E u1 ev E1; have [h1 h2] := V _ _ _ ev.
split=> // K [<-]; exact: h2.
Qed.

Lemma step_fail c s x s' : step c s x = (s', false) -> s_round s' = s_round s /\ (number x <> 2%N -> s' = s).
Proof.
case: x => [k gm cr r rnd|l p2p dr|l|l|l rnd|h l p2p|l] /=.
- rewrite /round1; case: eqP => //= hr; last by case=> <-. case: (bind _ _) => [[[y b] p]||] //= [<-]; by split.
- rewrite /round2; case E: (bind _ _) => [[x1 B]||] //=; last by case=> <-. 2: by case=> <-.
  case: (loop2 _ _ _ _ _ _ _ _ _ _) => acc [out||] //= [<-]; by split.
- rewrite /round3; case E: (bind _ _) => [[x1 B]||] //= [<-]; by split.
- rewrite /round4; case E: (bind _ _) => [[x1 B]||] //= [<-]; by split.
- rewrite /round5; case E: (bind _ _) => [[[[R Rb] pf] pp]||] //= [<-]; by split.
- rewrite /round6; case E: (bind _ _) => [si||] //= [<-]; by split.
by case: (sign_output _ _ _ _ _ _ _) => //= [] [<-].
Qed.
End S.

(** C38.  A call succeeds only in its own round and, from round 2 on, only if the ids of its map are exactly
    the cosigners (its own id may be present or not).  A call that succeeds moves to the next round (SignOutput
    stays in the last one); a call that fails changes neither the round nor, except for round 2, anything
    else. *)
Theorem C38_step : forall (F : fieldType) (G : lmodType F) (g : G) q val xc yodd penc pdec H blk zk (Z : zkf F G zk) c s (x : call G zk),
  (forall s', step g q val xc yodd penc pdec H blk Z c s x = (s', true) ->
    [/\ s_round s = number x, s_round s' = minn (number x).+1 7 &
        forall K, ids x = Some K -> forall j, j != c_id c -> (j \in K) = (j \in c_cosigners c)]) /\
  (forall s', step g q val xc yodd penc pdec H blk Z c s x = (s', false) ->
    s_round s' = s_round s /\ (number x <> 2%N -> s' = s)).
Proof. move=> F G g q val xc yodd penc pdec H blk zk Z c s x; split=> s'; [exact: step_ok|exact: step_fail]. Qed.
Print Assumptions C38_step.

(** In every sequence of calls on a new signer, with any arguments, the rounds that succeed are 1, 2, ... in
    this order, each at most once, before any successful SignOutput.  In particular at most one nonce is drawn
    into the state and at most one signature share computed from it, for one message hash. *)
Theorem C38_rounds_once_in_order : forall (F : fieldType) (G : lmodType F) (g : G) q val xc yodd penc pdec H blk zk (Z : zkf F G zk) c (l : seq (call G zk)) s done,
  session g q val xc yodd penc pdec H blk Z c (st0 G) l = (s, done) ->
  exists n, done = iota 1 (s_round s).-1 ++ nseq n 7%N /\ (1 <= s_round s <= 7)%N /\ (n <> 0%N -> s_round s = 7%N).
Proof.
move=> F G g q val xc yodd penc pdec H blk zk Z c l s done.
suff W s0 : (1 <= s_round s0 <= 7)%N -> session g q val xc yodd penc pdec H blk Z c s0 l = (s, done) ->
    exists n, [/\ done = iota (s_round s0) (s_round s - s_round s0) ++ nseq n 7%N,
      (1 <= s_round s <= 7)%N, (s_round s0 <= s_round s)%N & (n <> 0%N -> s_round s = 7%N)].
  by move=> h; have [//|n [-> h1 h2 h3]] := W _ _ h; exists n; split=> //; rewrite subn1.
elim: l s0 s done => [|x l IH] s0 s done h0 /=.
  by case=> <- <-; exists 0%N; rewrite subnn /=; split.
case E: (step _ _ _ _ _ _ _ _ _ _ _ _ _) => [s1 b]; rewrite /=.
case T: (session _ _ _ _ _ _ _ _ _ _ _ _ _) => [s2 d2] /= [<- <-] {s done}.
case: b E => E.
  have [h1 h2 _] := step_ok E.
  have h10 : (1 <= s_round s1 <= 7)%N by rewrite h2; move: h0; rewrite h1; lia.
  have [n [-> h3 h4 h5]] := IH _ _ _ h10 T.
  case: (ltnP (number x) 7) => h6.
    exists n; split=> //; last by move: h4; rewrite h2 h1; lia.
    have -> : (s_round s2 - s_round s0 = (s_round s2 - s_round s1).+1)%N by move: h4; rewrite h2 h1; lia.
    by rewrite /= h1 h2 (minn_idPl _).
  have h7 : number x = 7%N by move: h0; rewrite h1; lia.
  exists n.+1; move: h2 h4; rewrite h7 => -> h4; have e2 : s_round s2 = 7%N by lia.
  by rewrite h1 h7 e2 /=; split.
have [h1 _] := step_fail E; have h10 : (1 <= s_round s1 <= 7)%N by rewrite h1.
by have [n [-> h3 h4 h5]] := IH _ _ _ h10 T; exists n; rewrite -h1; split.
Qed.
Print Assumptions C38_rounds_once_in_order.
