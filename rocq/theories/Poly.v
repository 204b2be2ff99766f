(** Polynomials over the integers and polynomial division: model of
    sdfg/src/symbolic/polynomials.cpp:66-192 (get_leading_term, polynomial_div). *)
From Verif Require Import Sym SymFacts SymFuns SymProofs1.

(** SymEngine::MExprPoly with every symbol a generator: exponents (one per
    generator) and integer coefficient; no monomial twice, no zero coefficient. *)
Definition mono := list nat.
Definition poly := list (mono * Z).
Fixpoint mono_eqb (a b : mono) : bool :=
  match a, b with [], [] => true | x :: a, y :: b => Nat.eqb x y && mono_eqb a b | _, _ => false end.
Fixpoint pins (m : mono) (c : Z) (p : poly) : poly :=
  match p with
  | [] => if c =? 0 then [] else [(m, c)]
  | (m', c') :: r => if mono_eqb m m' then if c + c' =? 0 then r else (m, c + c') :: r else (m', c') :: pins m c r
  end.
Definition padd (p q : poly) : poly := fold_right (fun mc acc => pins (fst mc) (snd mc) acc) q p.
Fixpoint madd (a b : mono) : mono := match a, b with x :: a, y :: b => (x + y)%nat :: madd a b | _, _ => [] end.
Definition pscale (m : mono) (c : Z) (p : poly) : poly := fold_right (fun mc acc => pins (madd m (fst mc)) (c * snd mc) acc) [] p.
Definition pmul (p q : poly) : poly := fold_right (fun mc acc => padd (pscale (fst mc) (snd mc) q) acc) [] p.
Fixpoint ppow (p one : poly) (n : nat) : poly := match n with O => one | S n => pmul p (ppow p one n) end.

(** symbolic::polynomial (polynomials.cpp:8-19) for generators that contain all
    symbols of the expression.  [None]: not a polynomial. *)
Fixpoint unit_mono (x : string) (xs : list string) : option mono :=
  match xs with
  | [] => None
  | y :: r => if String.eqb x y then Some (1%nat :: map (fun _ => 0%nat) r) else option_map (cons 0%nat) (unit_mono x r)
  end.
Definition pconst (xs : list string) (z : Z) : poly := pins (map (fun _ => 0%nat) xs) z [].
Fixpoint to_poly (xs : list string) (e : expr) : option poly :=
  match e with
  | EInt z => Some (pconst xs z)
  | ESym x => option_map (fun m => [(m, 1)]) (unit_mono x xs)
  | EAdd l => fold_right (fun a acc => match to_poly xs a, acc with Some p, Some q => Some (padd p q) | _, _ => None end) (Some []) l
  | EMul l => fold_right (fun a acc => match to_poly xs a, acc with Some p, Some q => Some (pmul p q) | _, _ => None end) (Some (pconst xs 1)) l
  | EPow b n => option_map (fun p => ppow p (pconst xs 1) n) (to_poly xs b)
  | _ => None
  end.
(** the expression of a term and of a polynomial (lines 157-163, 176-181) *)
Fixpoint mono_expr (xs : list string) (m : mono) (acc : expr) : expr :=
  match xs, m with
  | x :: xs, O :: m => mono_expr xs m acc
  | x :: xs, S O :: m => mono_expr xs m (smul acc (ESym x))
  | x :: xs, n :: m => mono_expr xs m (smul acc (EPow (ESym x) n))
  | _, _ => acc
  end.
Definition of_poly (xs : list string) (p : poly) : expr := fold_right (fun mc acc => sadd (mono_expr xs (fst mc) (EInt (snd mc))) acc) (EInt 0) p.

(** get_leading_term (lines 66-90) *)
Fixpoint mono_ltb (a b : mono) : bool :=
  match a, b with x :: a, y :: b => if Nat.ltb x y then true else if Nat.ltb y x then false else mono_ltb a b | _, _ => false end.
Definition lead (p : poly) : option (mono * Z) :=
  match p with [] => None | t :: r => Some (fold_left (fun best t => if mono_ltb (fst best) (fst t) then t else best) r t) end.
Fixpoint msub (a b : mono) : option mono :=
  match a, b with
  | [], _ => Some []
  | x :: a, y :: b => if Nat.ltb x y then None else option_map (cons (x - y)%nat) (msub a b)
  | _, [] => None
  end.
(** the loop of polynomial_div (lines 132-187); [None]: exception, or a read past
    the end of the exponents of the zero polynomial *)
Fixpoint pdiv (n : nat) (D Sp Q R : poly) : option (poly * poly) :=
  match D, n with
  | [], _ => Some (Q, R)
  | _, O => Some (Q, padd R D)
  | _, S n =>
      match lead D, lead Sp with
      | Some (md, cd), Some (ms, cs) =>
          let move := pdiv n (padd [(md, - cd)] D) Sp Q (padd [(md, cd)] R) in
          match msub md ms with
          | None => move
          | Some d =>
              match sym_div (EInt cd) (EInt cs) with
              | Some (EInt q) => if q =? 0 then move else pdiv n (padd (pscale d (- q) Sp) D) Sp (padd [(d, q)] Q) R
              | _ => None
              end
          end
      | _, _ => None
      end
  end.
(** polynomial_div (lines 92-192).  [quot]: the quotient chosen when the stride
    is not a polynomial (lines 107-124), whatever it is. *)
Definition polynomial_div (quot : expr -> expr -> expr) (offset stride : expr) : option (expr * expr) :=
  if expr_eqb offset (EInt 0) then Some (EInt 0, EInt 0)
  else
    let xs := nodup string_dec (atoms offset ++ atoms stride) in
    match to_poly xs stride with
    | None => let q := quot offset stride in Some (q, ssub offset (smul q stride))
    | Some Sp =>
        match to_poly xs offset with
        | None => Some (EInt 0, offset)
        | Some D => match pdiv 100 D Sp [] [] with Some (Q, R) => Some (of_poly xs Q, of_poly xs R) | None => None end
        end
    end.

(* ---------------------------------------------------------------- *)
Section Val.
  Variables (s : env).
  Fixpoint mval (xs : list string) (m : mono) : Z :=
    match xs, m with x :: xs, n :: m => s x ^ Z.of_nat n * mval xs m | _, _ => 1 end.
  Definition pval (xs : list string) (p : poly) : Z := fold_right (fun mc acc => snd mc * mval xs (fst mc) + acc) 0 p.
  Variable xs : list string.
  (** one exponent per generator *)
  Definition wf (p : poly) : Prop := forall m c, In (m, c) p -> List.length m = List.length xs.

  Lemma mono_eqb_eq a : forall b, mono_eqb a b = true -> a = b.
  Proof. induction a as [|x a IH]; intros [|y b]; cbn; try discriminate; auto. intros H. apply andb_true_iff in H as [H1 H2]. apply Nat.eqb_eq in H1. rewrite (IH b) by auto. congruence. Qed.
  Lemma pins_val m c p : pval xs (pins m c p) = c * mval xs m + pval xs p.
  Proof.
    induction p as [|[m' c'] p IH]; cbn [pins pval fold_right fst snd].
    - destruct (Z.eqb_spec c 0) as [->|]; cbn; lia.
    - fold (pval xs p). destruct (mono_eqb m m') eqn:E.
      + apply mono_eqb_eq in E. subst m'. destruct (Z.eqb_spec (c + c') 0) as [H|H]; cbn [pval fold_right fst snd]; fold (pval xs p); [|lia]. assert (c' = - c) by lia. subst c'. lia.
      + cbn [pval fold_right fst snd]. fold (pval xs (pins m c p)). rewrite IH. lia.
  Qed.
  Lemma pins_wf m c p : List.length m = List.length xs -> wf p -> wf (pins m c p).
  Proof.
    intros L. induction p as [|[m' c'] p IH]; cbn [pins]; intros W.
    - destruct (c =? 0); [intros ? ? []|]. intros a b [H|[]]. congruence.
    - destruct (mono_eqb m m').
      + destruct (_ =? 0); [intros a b H; eapply W; right; eauto|]. intros a b [H|H]; [congruence|]. eapply W; right; eauto.
      + intros a b [H|H]; [injection H as <- <-; eapply W; left; eauto|]. eapply IH; eauto. intros x y Hx; eapply W; right; eauto.
  Qed.
  Lemma padd_val p q : pval xs (padd p q) = pval xs p + pval xs q.
  Proof. induction p as [|[m c] p IH]; cbn [padd fold_right fst snd]; [reflexivity|]. fold (padd p q). rewrite pins_val, IH. cbn [pval fold_right fst snd]. fold (pval xs p). lia. Qed.
  Lemma padd_wf p q : wf p -> wf q -> wf (padd p q).
  Proof. intros W1 W2. induction p as [|[m c] p IH]; cbn [padd fold_right fst snd]; auto. apply pins_wf; [eapply W1; left; eauto|]. apply IH. intros a b H. eapply W1; right; eauto. Qed.
  Lemma madd_val (ys : list string) : forall a b, List.length a = List.length ys -> List.length b = List.length ys -> mval ys (madd a b) = mval ys a * mval ys b.
  Proof.
    induction ys as [|x ys IH]; intros [|n a] [|k b]; cbn [madd mval List.length]; try discriminate; [reflexivity|]. intros H1 H2. rewrite IH by congruence. rewrite Nat2Z.inj_add, Z.pow_add_r by lia. lia.
  Qed.
  Lemma madd_len a : forall b, List.length b = List.length a -> List.length (madd a b) = List.length a.
  Proof. induction a as [|x a IH]; intros [|y b]; cbn [madd List.length]; try discriminate; [reflexivity|]. intros H. rewrite IH; congruence. Qed.
  Lemma pscale_val m c p : List.length m = List.length xs -> wf p -> pval xs (pscale m c p) = c * mval xs m * pval xs p.
  Proof.
    intros L W. induction p as [|[m' c'] p IH]; cbn [pscale fold_right fst snd]; [cbn; lia|]. fold (pscale m c p). rewrite pins_val, IH, madd_val; auto.
    - cbn [pval fold_right fst snd]. fold (pval xs p). lia.
    - eapply W; left; eauto.
    - intros a b H; eapply W; right; eauto.
  Qed.
  Lemma pscale_wf m c p : List.length m = List.length xs -> wf p -> wf (pscale m c p).
  Proof.
    intros L W. induction p as [|[m' c'] p IH]; cbn [pscale fold_right fst snd]; [intros ? ? []|]. apply pins_wf.
    - rewrite madd_len; auto. rewrite L. eapply W; left; eauto.
    - apply IH. intros a b H; eapply W; right; eauto.
  Qed.
  Lemma pmul_val p q : wf p -> wf q -> pval xs (pmul p q) = pval xs p * pval xs q /\ wf (pmul p q).
  Proof.
    intros W1 W2. induction p as [|[m c] p IH]; cbn [pmul fold_right fst snd]; [split; [reflexivity|intros ? ? []]|]. fold (pmul p q).
    assert (L: List.length m = List.length xs) by (eapply W1; left; eauto). destruct IH as [I1 I2]; [intros a b H; eapply W1; right; eauto|].
    rewrite padd_val, I1, pscale_val by auto. split; [cbn [pval fold_right fst snd]; fold (pval xs p); lia|]. apply padd_wf; auto using pscale_wf.
  Qed.
  Lemma zeros_val (ys : list string) : mval ys (map (fun _ => 0%nat) ys) = 1.
  Proof. induction ys as [|x ys IH]; cbn [map mval]; auto. rewrite IH. change (Z.of_nat 0) with 0. rewrite Z.pow_0_r. reflexivity. Qed.
  Lemma pconst_val z : pval xs (pconst xs z) = z.
  Proof. unfold pconst. rewrite pins_val, zeros_val. cbn. lia. Qed.
  Lemma pconst_wf z : wf (pconst xs z).
  Proof. apply pins_wf; [apply map_length|intros ? ? []]. Qed.
  Lemma ppow_val p n : wf p -> pval xs (ppow p (pconst xs 1) n) = pval xs p ^ Z.of_nat n /\ wf (ppow p (pconst xs 1) n).
  Proof.
    intros W. induction n as [|n [I1 I2]]; cbn [ppow]; [split; [apply pconst_val|apply pconst_wf]|].
    destruct (pmul_val p _ W I2) as [E Wf]. split; auto. rewrite E, I1. rewrite Nat2Z.inj_succ, Z.pow_succ_r by lia. reflexivity.
  Qed.
  Lemma unit_val (ys : list string) x m : unit_mono x ys = Some m -> mval ys m = s x /\ List.length m = List.length ys.
  Proof.
    revert m. induction ys as [|y ys IH]; cbn [unit_mono]; intros m H; [discriminate|]. destruct (String.eqb_spec x y) as [->|].
    - injection H as <-. cbn [mval List.length]. rewrite zeros_val, map_length. split; auto. change (Z.of_nat 1) with 1. lia.
    - destruct (unit_mono x ys) as [m'|]; [|discriminate]. injection H as <-. destruct (IH m' eq_refl) as [I1 I2]. cbn [mval List.length]. rewrite I1, I2. split; auto. change (Z.of_nat 0) with 0. rewrite Z.pow_0_r. lia.
  Qed.
  Lemma to_poly_val e : forall p, to_poly xs e = Some p -> ev s e = Fin (pval xs p) /\ wf p.
  Proof.
    induction e using expr_ind'; intros p Hp; cbn [to_poly] in Hp; try discriminate.
    - injection Hp as <-. split; [rewrite pconst_val; reflexivity|apply pconst_wf].
    - destruct (unit_mono x xs) as [m|] eqn:E; [|discriminate]. injection Hp as <-. destruct (unit_val xs x m E) as [U1 U2]. split.
      + cbn [pval fold_right fst snd ev]. rewrite U1. f_equal. lia.
      + intros a b [H|[]]. congruence.
    - cbn [ev]. revert p Hp. induction l as [|a l IH]; cbn [fold_right map xsum]; intros p Hp; [injection Hp as <-; split; [reflexivity|intros ? ? []]|].
      inversion H; subst. destruct (to_poly xs a) as [pa|] eqn:Ea; [|discriminate]. destruct (fold_right _ _ l) as [pl|] eqn:El; [|discriminate]. injection Hp as <-.
      destruct (H2 pa eq_refl) as [A1 A2]. destruct (IH H3 pl eq_refl) as [B1 B2]. split; [|apply padd_wf; auto]. rewrite padd_val. cbn in B1 |- *. rewrite A1. unfold xsum in *. rewrite B1. reflexivity.
    - cbn [ev]. revert p Hp. induction l as [|a l IH]; cbn [fold_right map xprod]; intros p Hp; [injection Hp as <-; split; [rewrite pconst_val; reflexivity|apply pconst_wf]|].
      inversion H; subst. destruct (to_poly xs a) as [pa|] eqn:Ea; [|discriminate]. destruct (fold_right _ _ l) as [pl|] eqn:El; [|discriminate]. injection Hp as <-.
      destruct (H2 pa eq_refl) as [A1 A2]. destruct (IH H3 pl eq_refl) as [B1 B2]. destruct (pmul_val pa pl A2 B2) as [M1 M2]. split; auto. rewrite M1. rewrite A1. unfold xprod in *. cbn [fold_right map] in *. rewrite B1. reflexivity.
    - destruct (to_poly xs e) as [pb|] eqn:Eb; [|discriminate]. injection Hp as <-. destruct (IHe pb eq_refl) as [B1 B2]. destruct (ppow_val pb n B2) as [P1 P2]. split; auto. rewrite P1. cbn [ev]. rewrite B1. reflexivity.
  Qed.
  Lemma mono_expr_val (ys : list string) : forall m acc z, ev s acc = Fin z -> ev s (mono_expr ys m acc) = Fin (z * mval ys m).
  Proof.
    induction ys as [|x ys IH]; intros [|n m] acc z H; cbn [mono_expr mval]; try (rewrite Z.mul_1_r; exact H).
    destruct n as [|[|n]].
      + rewrite (IH m acc z H). change (Z.of_nat 0) with 0. rewrite Z.pow_0_r. f_equal. lia.
      + rewrite (IH m (smul acc (ESym x)) (z * s x)); [|rewrite ev_smul, H; reflexivity]. change (Z.of_nat 1) with 1. rewrite Z.pow_1_r. f_equal. lia.
      + rewrite (IH m _ (z * s x ^ Z.of_nat (S (S n)))); [f_equal; lia|]. rewrite ev_smul, H. reflexivity.
  Qed.
  Lemma of_poly_val p : ev s (of_poly xs p) = Fin (pval xs p).
  Proof.
    induction p as [|[m c] p IH]; cbn [of_poly pval fold_right fst snd]; [reflexivity|]. fold (of_poly xs p). fold (pval xs p). rewrite ev_sadd, IH, (mono_expr_val xs m (EInt c) c eq_refl). reflexivity.
  Qed.
  Lemma lead_in p t : lead p = Some t -> In t p.
  Proof.
    destruct p as [|t0 r]; [discriminate|]. cbn [lead]. intros [= <-]. assert (G: forall (r : poly) b, In (fold_left (fun (best t : mono * Z) => if mono_ltb (fst best) (fst t) then t else best) r b) (b :: r)).
    { clear. induction r as [|x r IH]; intros b; cbn [fold_left]; [left; auto|]. destruct (mono_ltb _ _); [right; apply IH|]. destruct (IH b) as [H|H]; [left; exact H|right; right; exact H]. }
    apply G.
  Qed.
  Lemma msub_len a : forall b d, msub a b = Some d -> List.length d = List.length a.
  Proof. induction a as [|x a IH]; intros [|y b] d; cbn [msub]; try discriminate; try (intros [= <-]; reflexivity). destruct (Nat.ltb x y); [discriminate|]. destruct (msub a b) as [d'|] eqn:E; [|discriminate]. intros [= <-]. cbn. rewrite (IH _ _ E). reflexivity. Qed.
  Lemma pdiv_val n : forall D Sp Q R Q' R', pdiv n D Sp Q R = Some (Q', R') -> wf D -> wf Sp ->
    pval xs Q' * pval xs Sp + pval xs R' = pval xs D + pval xs Q * pval xs Sp + pval xs R.
  Proof.
    induction n as [|n IH]; intros D Sp Q R Q' R' H WD WS; cbn [pdiv] in H.
    - destruct D as [|t D]; injection H as <- <-; [cbn; lia|]. rewrite padd_val. lia.
    - destruct D as [|t D]; [injection H as <- <-; cbn; lia|]. set (D0 := t :: D) in *.
      destruct (lead D0) as [[md cd]|] eqn:LD; [|discriminate]. destruct (lead Sp) as [[ms cs]|]; [|discriminate].
      assert (Lm: List.length md = List.length xs) by (eapply WD; eapply lead_in; eauto).
      assert (W1: forall z, wf [(md, z)]) by (intros z a b [H1|[]]; congruence).
      assert (Mv: pdiv n (padd [(md, - cd)] D0) Sp Q (padd [(md, cd)] R) = Some (Q', R') -> pval xs Q' * pval xs Sp + pval xs R' = pval xs D0 + pval xs Q * pval xs Sp + pval xs R).
      { intros M. apply IH in M; auto; [|apply padd_wf; auto]. rewrite !padd_val in M. rewrite M. cbn [pval fold_right fst snd]. lia. }
      cbv zeta in H. destruct (msub md ms) as [d|] eqn:Em; [|auto]. destruct (sym_div (EInt cd) (EInt cs)) as [[q| | | | | | | | | | | | | |]|]; try discriminate.
      destruct (q =? 0); auto. assert (Ld: List.length d = List.length xs) by (rewrite (msub_len _ _ _ Em); auto).
      apply IH in H; auto; [|apply padd_wf; auto using pscale_wf]. rewrite H, !padd_val, pscale_val by auto. cbn [pval fold_right fst snd]. lia.
  Qed.
End Val.

(** offset = q * stride + r *)
Lemma polynomial_div_value quot offset stride q r s v w :
  polynomial_div quot offset stride = Some (q, r) -> eval s offset = Some v -> eval s stride = Some w ->
  (exists z, eval s (quot offset stride) = Some z) ->
  exists qv rv, eval s q = Some qv /\ eval s r = Some rv /\ v = qv * w + rv.
Proof.
  intros H Hv Hw (z & Hz). apply eval_ev in Hv, Hw, Hz. unfold polynomial_div in H. destruct (expr_eqb offset (EInt 0)) eqn:E0.
  - apply expr_eqb_eq in E0. subst offset. injection H as <- <-. exists 0, 0. cbn in Hv. assert (v = 0) by congruence. repeat split; auto.
  - set (xs := nodup _ _) in H. cbv zeta in H. destruct (to_poly xs stride) as [Sp|] eqn:ES.
    + destruct (to_poly xs offset) as [D|] eqn:ED.
      * destruct (pdiv 100 D Sp [] []) as [[Q R]|] eqn:EP; [|discriminate]. injection H as <- <-.
        destruct (to_poly_val s xs stride Sp ES) as [S1 S2]. destruct (to_poly_val s xs offset D ED) as [D1 D2].
        pose proof (pdiv_val s xs 100 D Sp [] [] Q R EP D2 S2) as P. exists (pval s xs Q), (pval s xs R). unfold eval. rewrite !of_poly_val. repeat split.
        rewrite Hv in D1. rewrite Hw in S1. assert (v = pval s xs D) by congruence. assert (w = pval s xs Sp) by congruence. cbn [pval fold_right] in P. fold (pval s xs Q) in P. subst v w. unfold pval in *. cbn [fold_right] in P. lia.
      * injection H as <- <-. exists 0, v. unfold eval. rewrite Hv. repeat split.
    + injection H as <- <-. exists z, (v - z * w). unfold eval. rewrite Hz, ev_ssub, ev_smul, Hv, Hz, Hw. cbn [xmul xadd]. split; [reflexivity|split]; [|lia]. apply f_equal. lia.
Qed.
