(** * The expression part of the C grammar, with a parser
    (C17 6.5: the productions that printed symbolic expressions use) *)
From Coq Require Import String ZArith List Bool Lia Arith.
From Verif Require Import TaskC.
Import ListNotations.
Local Open Scope string_scope.
Local Open Scope list_scope.
Local Open Scope nat_scope.

Inductive bop := Oor | Oand | Oeq | One | Olt | Ogt | Ole | Oge | Oadd | Osub | Omul | Odiv.
(** Tokens.  [TCast t]: a type name in parentheses (an integer type, so that it cannot be taken for a
    parenthesised expression).  [TPow]: the identifier [__daisy_sym_pow]. *)
Inductive tok := TNum (z : Z) | TVar (x : string) | TOp (o : bop) | TNot | TL | TR | TQ | TCol | TComma | TCast (t : cty) | TPow.
Inductive cx :=
| XNum (z : Z) | XVar (x : string) | XBin (o : bop) (a b : cx) | XNeg (a : cx) | XNot (a : cx)
| XTern (c a b : cx) | XCast (t : cty) (a : cx) | XPow (a b : cx).
(** 6.5.5-6.5.15: logical-OR 1, logical-AND 2, equality 3, relational 4, additive 5, multiplicative 6;
    conditional expressions 0, unary and cast expressions 7, primary and postfix expressions 8. *)
Definition lev (o : bop) : nat :=
  match o with Oor => 1 | Oand => 2 | Oeq | One => 3 | Olt | Ogt | Ole | Oge => 4 | Oadd | Osub => 5 | Omul | Odiv => 6 end.
(** The grammar: [der n ts a] when the tokens [ts] are an expression of level [n] with syntax tree [a]. *)
Inductive der : nat -> list tok -> cx -> Prop :=
| D_num z : der 8 [TNum z] (XNum z)
| D_var x : der 8 [TVar x] (XVar x)
| D_par ts a : der 0 ts a -> der 8 (TL :: ts ++ [TR]) a
| D_pow t1 a t2 b : der 0 t1 a -> der 0 t2 b -> der 8 (TPow :: TL :: t1 ++ TComma :: t2 ++ [TR]) (XPow a b)
| D_neg ts a : der 7 ts a -> der 7 (TOp Osub :: ts) (XNeg a)
| D_not ts a : der 7 ts a -> der 7 (TNot :: ts) (XNot a)
| D_cast t ts a : der 7 ts a -> der 7 (TCast t :: ts) (XCast t a)
| D_bin o t1 a t2 b : der (lev o) t1 a -> der (S (lev o)) t2 b -> der (lev o) (t1 ++ TOp o :: t2) (XBin o a b)
| D_tern tc c t1 a t2 b : der 1 tc c -> der 0 t1 a -> der 0 t2 b -> der 0 (tc ++ TQ :: t1 ++ TCol :: t2) (XTern c a b)
| D_up n ts a : n < 8 -> der (S n) ts a -> der n ts a.

(** A recursive-descent parser. *)
Definition pbind (r : option (cx * list tok)) (f : cx -> list tok -> option (cx * list tok)) : option (cx * list tok) :=
  match r with Some (a, ts) => f a ts | None => None end.
Fixpoint parse (fuel n : nat) (ts : list tok) {struct fuel} : option (cx * list tok) :=
  match fuel with
  | 0 => None
  | S k =>
      match n with
      | 0 => pbind (parse k 1 ts) (fun c r =>
          match r with
          | TQ :: r => pbind (parse k 0 r) (fun a r =>
              match r with TCol :: r => pbind (parse k 0 r) (fun b r => Some (XTern c a b, r)) | _ => None end)
          | _ => Some (c, r)
          end)
      | 7 => match ts with
             | TOp Osub :: r => pbind (parse k 7 r) (fun a r => Some (XNeg a, r))
             | TNot :: r => pbind (parse k 7 r) (fun a r => Some (XNot a, r))
             | TCast t :: r => pbind (parse k 7 r) (fun a r => Some (XCast t a, r))
             | _ => parse k 8 ts
             end
      | 8 => match ts with
             | TNum z :: r => Some (XNum z, r)
             | TVar x :: r => Some (XVar x, r)
             | TL :: r => pbind (parse k 0 r) (fun a r => match r with TR :: r => Some (a, r) | _ => None end)
             | TPow :: TL :: r => pbind (parse k 0 r) (fun a r =>
                 match r with TComma :: r => pbind (parse k 0 r) (fun b r => match r with TR :: r => Some (XPow a b, r) | _ => None end) | _ => None end)
             | _ => None
             end
      | _ => pbind (parse k (S n) ts) (fun a r => loop k n a r)
      end
  end
with loop (fuel n : nat) (a : cx) (ts : list tok) {struct fuel} : option (cx * list tok) :=
  match fuel with
  | 0 => None
  | S k => match ts with
           | TOp o :: r => if lev o =? n then pbind (parse k (S n) r) (fun b r => loop k n (XBin o a b) r) else Some (a, ts)
           | _ => Some (a, ts)
           end
  end.

(** Enough fuel: *)
Definition parses (n : nat) (ts : list tok) (res : cx * list tok) : Prop := exists N, forall k, N <= k -> parse k n ts = Some res.
Definition loops (n : nat) (a : cx) (ts : list tok) (res : cx * list tok) : Prop := exists N, forall k, N <= k -> loop k n a ts = Some res.

(** ** The parser finds every derivation, so the grammar is unambiguous *)
Definition low (n : nat) (r : list tok) : Prop := match r with TOp o :: _ => lev o <= n | _ => True end.
Definition after (n : nat) (a : cx) (r : list tok) (res : cx * list tok) : Prop :=
  match n with
  | 0 => (match r with TQ :: _ => False | _ => True end) /\ res = (a, r)
  | S _ => if n <? 7 then loops n a r res else res = (a, r)
  end.
Lemma lev_range o : 1 <= lev o <= 6.
Proof. destruct o; cbn; lia. Qed.
Lemma der_range n ts a : der n ts a -> n <= 8.
Proof. induction 1; try lia; destruct (lev_range o); lia. Qed.
Definition first8 (ts : list tok) : Prop := match ts with TNum _ :: _ | TVar _ :: _ | TL :: _ | TPow :: _ => True | _ => False end.
Lemma der8_first n ts a : der n ts a -> n = 8 -> first8 ts.
Proof. induction 1; intros E; try discriminate; cbn; auto; try lia; destruct (lev_range o); lia. Qed.
Lemma loops_stop n a r : (match r with TOp o :: _ => lev o <> n | _ => True end) -> loops n a r (a, r).
Proof.
  intros H. exists 1. intros [|k] Hk; [lia|]. cbn [loop]. destruct r as [|[| |o| | | | | | | |] r]; auto. destruct (Nat.eqb_spec (lev o) n); [congruence|auto].
Qed.
Lemma parse_complete n ts a : der n ts a -> forall r res, low n r -> after n a r res -> parses n (ts ++ r) res.
Proof.
  induction 1 as [z|x|ts a D IH|t1 a t2 b D1 IH1 D2 IH2|ts a D IH|ts a D IH|t ts a D IH|o t1 a t2 b D1 IH1 D2 IH2|tc c t1 a t2 b D0 IH0 D1 IH1 D2 IH2|n ts a L D IH]; intros r res LO AF.
  - cbn in AF. subst res. exists 1. intros [|k] Hk; [lia|]. reflexivity.
  - cbn in AF. subst res. exists 1. intros [|k] Hk; [lia|]. reflexivity.
  - cbn in AF. subst res. destruct (IH (TR :: r) (a, TR :: r)) as (N & P); [exact Logic.I|split; auto; exact Logic.I|].
    exists (S N). intros [|k] Hk; [lia|]. cbn [parse app]. rewrite <- app_assoc. cbn [app]. rewrite P by lia. reflexivity.
  - cbn in AF. subst res. destruct (IH2 (TR :: r) (b, TR :: r)) as (N2 & P2); [exact Logic.I|split; auto; exact Logic.I|].
    destruct (IH1 (TComma :: t2 ++ TR :: r) (a, TComma :: t2 ++ TR :: r)) as (N1 & P1); [exact Logic.I|split; auto; exact Logic.I|].
    exists (S (N1 + N2)). intros [|k] Hk; [lia|]. cbn [parse app]. rewrite <- app_assoc. cbn [app]. rewrite <- app_assoc. cbn [app].
    rewrite P1 by lia. cbn [pbind]. rewrite P2 by lia. reflexivity.
  - cbn in AF. subst res. destruct (IH r (a, r)) as (N & P); [destruct r as [|[]]; cbn; auto; destruct (lev_range o); lia|reflexivity|].
    exists (S N). intros [|k] Hk; [lia|]. cbn [parse app]. rewrite P by lia. reflexivity.
  - cbn in AF. subst res. destruct (IH r (a, r)) as (N & P); [destruct r as [|[]]; cbn; auto; destruct (lev_range o); lia|reflexivity|].
    exists (S N). intros [|k] Hk; [lia|]. cbn [parse app]. rewrite P by lia. reflexivity.
  - cbn in AF. subst res. destruct (IH r (a, r)) as (N & P); [destruct r as [|[]]; cbn; auto; destruct (lev_range o); lia|reflexivity|].
    exists (S N). intros [|k] Hk; [lia|]. cbn [parse app]. rewrite P by lia. reflexivity.
  - (* binary *)
    pose proof (lev_range o) as LR. rewrite <- app_assoc. cbn [app]. apply IH1; [cbn; lia|].
    assert (AL : after (lev o) (XBin o a b) r res = loops (lev o) (XBin o a b) r res).
    { unfold after. destruct (lev o) eqn:E; [lia|]. destruct (Nat.ltb_spec (S n) 7); [reflexivity|lia]. }
    rewrite AL in AF. clear AL.
    destruct (IH2 r (b, r)) as (N2 & P2).
    { destruct r as [|[]]; cbn in *; auto; lia. }
    { unfold after. destruct (Nat.ltb_spec (S (lev o)) 7); [|reflexivity]. apply loops_stop. destruct r as [|[]]; cbn in *; auto; lia. }
    destruct AF as (N3 & P3).
    assert (LP : loops (lev o) a (TOp o :: t2 ++ r) res).
    { exists (S (N2 + N3)). intros [|k] Hk; [lia|]. cbn [loop]. rewrite Nat.eqb_refl, P2 by lia. cbn [pbind]. apply P3. lia. }
    unfold after. destruct (lev o) eqn:E; [lia|]. destruct (Nat.ltb_spec (S n) 7); [exact LP|lia].
  - (* ternary *)
    destruct AF as [NQ ->]. destruct (IH2 r (b, r)) as (N2 & P2); [exact LO|split; auto|].
    destruct (IH1 (TCol :: t2 ++ r) (a, TCol :: t2 ++ r)) as (N1 & P1); [exact Logic.I|split; auto; exact Logic.I|].
    destruct (IH0 (TQ :: t1 ++ TCol :: t2 ++ r) (c, TQ :: t1 ++ TCol :: t2 ++ r)) as (N0 & P0); [exact Logic.I|apply loops_stop; exact Logic.I|].
    exists (S (N0 + N1 + N2)). intros [|k] Hk; [lia|]. cbn [parse]. rewrite <- app_assoc. cbn [app]. rewrite <- app_assoc. cbn [app].
    rewrite P0 by lia. cbn [pbind]. rewrite P1 by lia. cbn [pbind]. rewrite P2 by lia. reflexivity.
  - (* coercion *)
    destruct (Nat.eq_dec n 0) as [->|N0]; [|destruct (Nat.eq_dec n 7) as [->|N7]].
    + destruct AF as [NQ ->]. destruct (IH r (a, r)) as (N & P).
      { destruct r as [|[]]; cbn in *; auto; lia. }
      { apply loops_stop. destruct r as [|[]]; cbn in *; auto; lia. }
      exists (S N). intros [|k] Hk; [lia|]. cbn [parse]. rewrite P by lia. cbn [pbind]. destruct r as [|[]]; auto; contradiction.
    + cbn in AF. subst res. destruct (IH r (a, r)) as (N & P).
      { destruct r as [|[]]; cbn in *; auto; lia. }
      { reflexivity. }
      pose proof (der8_first _ _ _ D eq_refl) as F8. exists (S N). intros [|k] Hk; [lia|]. specialize (P k ltac:(lia)). cbn [parse].
      destruct ts as [|[]]; cbn [app first8] in *; try contradiction; exact P.
    + assert (1 <= n <= 6) as NR by lia.
      assert (AF' : loops n a r res). { unfold after in AF. destruct n; [lia|]. destruct (Nat.ltb_spec (S n) 7); [exact AF|lia]. }
      destruct AF' as (N1 & P1). destruct (IH r (a, r)) as (N2 & P2).
      { destruct r as [|[]]; cbn in *; auto; lia. }
      { unfold after. destruct (Nat.ltb_spec (S n) 7); [|reflexivity]. apply loops_stop. destruct r as [|[]]; cbn in *; auto; lia. }
      exists (S (N1 + N2)). intros [|k] Hk; [lia|]. 
      assert (PE : parse (S k) n (ts ++ r) = pbind (parse k (S n) (ts ++ r)) (fun a r => loop k n a r)).
      { destruct n as [|[|[|[|[|[|[|]]]]]]]; try lia; reflexivity. }
      rewrite PE, P2 by lia. cbn [pbind]. apply P1. lia.
Qed.
(** An expression with a derivation is parsed to it. *)
Lemma parse_full ts a : der 0 ts a -> parses 0 ts (a, []).
Proof. intros D. rewrite <- (app_nil_r ts). eapply parse_complete; eauto; cbn; auto. Qed.
Lemma unambiguous ts a b : der 0 ts a -> der 0 ts b -> a = b.
Proof.
  intros A B. destruct (parse_full _ _ A) as (N & P). destruct (parse_full _ _ B) as (M & Q).
  specialize (P (N + M) ltac:(lia)). specialize (Q (N + M) ltac:(lia)). congruence.
Qed.
Lemma der_up n m ts a : der n ts a -> m <= n -> der m ts a.
Proof.
  intros D L. pose proof (der_range _ _ _ D) as R. induction n as [|n IH]; [replace m with 0 by lia; auto|].
  destruct (Nat.eq_dec m (S n)) as [->|]; auto. apply IH; [apply D_up; auto; lia|lia|lia].
Qed.
(** more fuel does not change a result *)
Lemma parse_more : forall k, (forall n ts r, parse k n ts = Some r -> parse (S k) n ts = Some r) /\ (forall n a ts r, loop k n a ts = Some r -> loop (S k) n a ts = Some r).
Proof.
  induction k as [|k [IP IL]]; [split; intros; discriminate|].
  assert (PB : forall n ts (f h : cx -> list tok -> option (cx * list tok)) r, (forall a q r, f a q = Some r -> h a q = Some r) -> pbind (parse k n ts) f = Some r -> pbind (parse (S k) n ts) h = Some r).
  { intros n ts f h r FH E. destruct (parse k n ts) as [[a q]|] eqn:P; [|discriminate]. rewrite (IP _ _ _ P). apply FH. exact E. }
  split.
  - intros n ts r E. change (parse (S (S k)) n ts) with
      (match n with
      | 0 => pbind (parse (S k) 1 ts) (fun c r =>
          match r with
          | TQ :: r => pbind (parse (S k) 0 r) (fun a r =>
              match r with TCol :: r => pbind (parse (S k) 0 r) (fun b r => Some (XTern c a b, r)) | _ => None end)
          | _ => Some (c, r)
          end)
      | 7 => match ts with
             | TOp Osub :: r => pbind (parse (S k) 7 r) (fun a r => Some (XNeg a, r))
             | TNot :: r => pbind (parse (S k) 7 r) (fun a r => Some (XNot a, r))
             | TCast t :: r => pbind (parse (S k) 7 r) (fun a r => Some (XCast t a, r))
             | _ => parse (S k) 8 ts
             end
      | 8 => match ts with
             | TNum z :: r => Some (XNum z, r)
             | TVar x :: r => Some (XVar x, r)
             | TL :: r => pbind (parse (S k) 0 r) (fun a r => match r with TR :: r => Some (a, r) | _ => None end)
             | TPow :: TL :: r => pbind (parse (S k) 0 r) (fun a r =>
                 match r with TComma :: r => pbind (parse (S k) 0 r) (fun b r => match r with TR :: r => Some (XPow a b, r) | _ => None end) | _ => None end)
             | _ => None
             end
      | _ => pbind (parse (S k) (S n) ts) (fun a r => loop (S k) n a r)
      end).
    cbn [parse] in E. destruct n as [|[|[|[|[|[|[|[|[|n]]]]]]]]];
      try (eapply PB; [|exact E]; cbv beta; auto; fail).
    + eapply PB; [|exact E]. cbv beta. intros a [|[] q] r0 H; auto. eapply PB; [|exact H]. cbv beta. intros a1 [|[] q1] r1 H1; auto. eapply PB; [|exact H1]. auto.
    + destruct ts as [|[| |o| | | | | | | |] q]; auto; try (eapply PB; [|exact E]; auto; fail). destruct o; auto. eapply PB; [|exact E]; auto.
    + destruct ts as [|[] q]; auto; try (eapply PB; [|exact E]; auto; fail). destruct q as [|[] q]; auto. eapply PB; [|exact E]. cbv beta. intros a1 [|[] q1] r1 H1; auto. eapply PB; [|exact H1]. auto.
  - intros n a ts r E. cbn [loop] in E. destruct ts as [|[] q]; auto. change (loop (S (S k)) n a (TOp o :: q)) with (if lev o =? n then pbind (parse (S k) (S n) q) (fun b r => loop (S k) n (XBin o a b) r) else Some (a, TOp o :: q)).
    destruct (lev o =? n); auto. eapply PB; [|exact E]. cbv beta. auto.
Qed.
Lemma parse_parses k n ts r : parse k n ts = Some r -> parses n ts r.
Proof. intros P. exists k. intros m L. induction L; auto. apply parse_more; auto. Qed.
