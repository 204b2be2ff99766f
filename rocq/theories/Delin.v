(** Delinearization: model of sdfg/src/symbolic/utils.cpp:591-711. *)
From Verif Require Import Sym SymFacts SymFuns SymProofs1 SymProofs2 SymProofs3 SymProofs4 Poly Skew.

(** polynomial + affine_coefficients for several symbols (polynomials.cpp:8-48;
    called at utils.cpp:607-617): the coefficient of each symbol and the constant
    part.  [None]: not a polynomial in the symbols or of total degree above one. *)
Fixpoint affines (xs : list string) (e : expr) : option (list (string * expr) * expr) :=
  match xs with
  | [] => Some ([], e)
  | x :: r => match affine x e with Some (c, k) => match affines r k with Some (l, k') => Some ((x, c) :: l, k') | None => None end | None => None end
  end.
Definition uses_any (xs : list string) (e : expr) : bool := existsb (uses e) xs.
Definition affine_coefficients (xs : list string) (e : expr) : option (list (string * expr) * expr) :=
  match affines xs e with
  | Some (l, k) => if uses_any xs k || existsb (fun xc => uses_any xs (snd xc)) l then None else Some (l, k)
  | None => None
  end.

(** lines 629-637: the first symbol whose coefficient has the most atoms *)
Definition atom_count (e : expr) : nat := List.length (nodup string_dec (atoms e)).
Definition widest (l : list (string * expr)) : option (string * expr) :=
  match l with [] => None | t :: r => Some (fold_left (fun best t => if Nat.ltb (atom_count (snd best)) (atom_count (snd t)) then t else best) r t) end.
Definition drop (x : string) (l : list (string * expr)) : list (string * expr) := filter (fun xc => negb (String.eqb x (fst xc))) l.
(** what is left after peeling (lines 660-663): the code subtracts, expands and
    simplifies; the model writes the sum of the remaining terms. *)
Definition rest (l : list (string * expr)) : expr := fold_right (fun xc acc => sadd (smul (snd xc) (ESym (fst xc))) acc) (EInt 0) l.

(** one test [minimum >= z] (lines 642-658, 667-675) *)
Definition at_least (A : assumptions) (e : expr) (z : Z) : bool :=
  match minimum [] A e with Some m => is_true (sle (EInt z) m) | None => false end.
(** outcome of the peeling loop: crash (null dereference or exception), gave up,
    or the peeled (stride, symbol, share of the offset) with the final offset *)
Inductive peeled := Crash | Stuck | Peeled (l : list (expr * string * expr)) (offset : expr).
(** lines 624-693; [quot]: see polynomial_div *)
Fixpoint peel (quot : expr -> expr -> expr) (A : assumptions) (n : nat) (l : list (string * expr)) (offset : expr) : peeled :=
  match widest l, n with
  | None, _ => Peeled [] offset
  | _, O => Stuck
  | Some (x, stride), S n =>
      if negb (at_least A (ESym x) 0) then Stuck
      else if negb (at_least A stride 1) then Stuck
      else
        let l' := drop x l in
        if negb (at_least A (rest l') 0) then Stuck
        else
          match maximum [] A stride, maximum [] A (rest l') with
          | Some us, Some ur =>
              if negb (is_true (sle ur us)) then Stuck
              else
                match polynomial_div quot offset stride with
                | None => Crash
                | Some (q, r) =>
                    match peel quot A n l' r with
                    | Peeled ps o => Peeled ((stride, x, q) :: ps) o
                    | other => other
                    end
                end
          | _, _ => Crash
          end
  end.

(** lines 594-602: the symbols that vary; [None]: Assumptions::at throws *)
Fixpoint varying (A : assumptions) (ys : list string) : option (list string) :=
  match ys with
  | [] => Some []
  | y :: r =>
      match A y, varying A r with
      | Some a, Some l => Some (if negb (aconst a) || (match amap a with Some _ => true | None => false end) then y :: l else l)
      | _, _ => None
      end
  end.
(** the whole function for one dimension (lines 593-711); [order] arranges the
    symbols (the set's order).  [None]: exception or crash. *)
Definition delinearize (order : list string -> list string) (quot : expr -> expr -> expr) (A : assumptions) (e : expr) : option (list expr) :=
  match varying A (nodup string_dec (atoms e)) with
  | None => None
  | Some ys =>
      let xs := order ys in
      match xs with
      | [] => Some [e]
      | _ =>
          match affine_coefficients xs e with
          | None => Some [e]
          | Some (l, k) =>
              match peel quot A (List.length l) l k with
              | Crash => None
              | Stuck => Some [e]
              | Peeled ps o => if expr_eqb o (EInt 0) then Some (map (fun p => sadd (ESym (snd (fst p))) (snd p)) ps) else Some [e]
              end
          end
      end
  end.

(* ---------------------------------------------------------------- *)
(** * specification side: dot products and mixed radix *)
Fixpoint dot (a b : list Z) : Z := match a, b with x :: a, y :: b => x * y + dot a b | _, _ => 0 end.
(** the digits below position j make up less than one stride_j *)
Fixpoint mixed_radix (strides digits : list Z) : Prop :=
  match strides, digits with
  | c :: cs, d :: ds => 0 <= dot cs ds < c /\ mixed_radix cs ds
  | _, _ => True
  end.

Lemma radix_inj cs : forall ds ds', List.length ds = List.length cs -> List.length ds' = List.length cs ->
  mixed_radix cs ds -> mixed_radix cs ds' -> dot cs ds = dot cs ds' -> ds = ds'.
Proof.
  induction cs as [|c cs IH]; intros [|d ds] [|d' ds']; cbn [List.length mixed_radix dot]; try discriminate; auto.
  intros L1 L2 [B1 M1] [B2 M2] E. assert (d = d') by nia. subst d'. f_equal. apply IH; auto. lia.
Qed.

(** the values of the pieces *)
Definition evals (s : env) (l : list expr) (vs : list Z) : Prop := Forall2 (fun e v => eval s e = Some v) l vs.
Definition rest_val (s : env) (l : list (string * expr)) (cs : list Z) : Z := dot cs (map (fun xc => s (fst xc)) l).

Lemma affines_val xs : forall e l k s v, affines xs e = Some (l, k) -> eval s e = Some v ->
  map fst l = xs /\ exists cs kv, evals s (map snd l) cs /\ eval s k = Some kv /\ v = rest_val s l cs + kv.
Proof.
  induction xs as [|x xs IH]; cbn [affines]; intros e l k s v H Hv.
  - injection H as <- <-. split; auto. exists [], v. repeat split; auto. constructor.
  - destruct (affine x e) as [[c k0]|] eqn:Ea; [|discriminate]. destruct (affines xs k0) as [[l0 k1]|] eqn:Es; [|discriminate]. injection H as <- <-.
    destruct (affine_recompose_value _ _ _ _ _ _ Ea Hv) as (cv & kv & Hc & Hk & -> & _).
    destruct (IH _ _ _ _ _ Es Hk) as (F & cs & kv' & E1 & E2 & E3). split; [cbn; congruence|].
    exists (cv :: cs), kv'. cbn [map snd]. repeat split; auto; [constructor; auto|]. unfold rest_val in *. cbn [map dot fst]. lia.
Qed.

Lemma widest_in l t : widest l = Some t -> In t l.
Proof.
  destruct l as [|t0 r]; [discriminate|]. cbn [widest]. intros [= <-].
  assert (G: forall (r : list (string * expr)) b, In (fold_left (fun (best t : string * expr) => if Nat.ltb (atom_count (snd best)) (atom_count (snd t)) then t else best) r b) (b :: r)).
  { clear. induction r as [|x r IH]; intros b; cbn [fold_left]; [left; auto|]. destruct (Nat.ltb _ _); [right; apply IH|]. destruct (IH b) as [H|H]; [left; exact H|right; right; exact H]. }
  apply G.
Qed.

(** value of the terms, order-free *)
Definition terms (s : env) (l : list (string * expr)) : option Z :=
  fold_right (fun xc acc => match eval s (snd xc), acc with Some c, Some a => Some (c * s (fst xc) + a) | _, _ => None end) (Some 0) l.
Lemma terms_rest s l v : terms s l = Some v -> eval s (rest l) = Some v.
Proof.
  revert v. induction l as [|[x c] l IH]; cbn [terms rest fold_right fst snd]; intros v H; [exact H|]. fold (terms s l) in H. fold (rest l).
  destruct (eval s c) as [cv|] eqn:Ec; [|discriminate]. destruct (terms s l) as [a|]; [|discriminate]. injection H as <-.
  specialize (IH a eq_refl). apply eval_ev in IH, Ec. unfold eval. rewrite ev_sadd, ev_smul, IH, Ec. reflexivity.
Qed.
Lemma terms_evals s l cs : evals s (map snd l) cs -> terms s l = Some (rest_val s l cs).
Proof.
  revert cs. induction l as [|[x c] l IH]; cbn [map snd]; intros cs H; inversion H; subst; cbn [terms fold_right fst snd]; [reflexivity|]. fold (terms s l).
  rewrite (IH _ H4), H2. unfold rest_val. cbn [map dot fst]. reflexivity.
Qed.
Lemma terms_drop s x c l v : NoDup (map fst l) -> In (x, c) l -> terms s l = Some v ->
  exists cv a, eval s c = Some cv /\ terms s (drop x l) = Some a /\ v = cv * s x + a.
Proof.
  revert v. induction l as [|[y d] l IH]; intros v ND Hin H; [destruct Hin|]. cbn [terms fold_right fst snd] in H. fold (terms s l) in H.
  destruct (eval s d) as [dv|] eqn:Ed; [|discriminate]. destruct (terms s l) as [a|] eqn:Et; [|discriminate]. injection H as <-.
  cbn [map fst] in ND. inversion ND; subst. cbn [drop filter fst]. destruct Hin as [Hin|Hin].
  - injection Hin as <- <-. rewrite String.eqb_refl. cbn [negb]. fold (drop y l). assert (D: drop y l = l).
    { clear - H1. induction l as [|[z e] l IH]; cbn [drop filter fst]; auto. cbn [map fst In] in H1. destruct (String.eqb_spec y z); [exfalso; apply H1; auto|]. cbn [negb]. fold (drop y l). rewrite IH; auto. }
    exists dv, a. rewrite D. auto.
  - assert (y <> x) by (intros ->; apply H1; apply in_map_iff; exists (x, c); auto). destruct (String.eqb_spec x y); [congruence|]. cbn [negb]. fold (drop x l).
    destruct (IH a H2 Hin eq_refl) as (cv & b & E1 & E2 & ->). exists cv, (dv * s y + b). split; [auto|]. split; [|lia]. cbn [terms fold_right fst snd]. fold (terms s (drop x l)). rewrite Ed, E2. reflexivity.
Qed.
Lemma drop_nodup x l : NoDup (map fst l) -> NoDup (map fst (drop x l)).
Proof.
  induction l as [|[y d] l IH]; cbn [drop filter map fst]; intros H; [exact H|]. inversion H; subst. fold (drop x l). destruct (negb _); auto. cbn [map fst]. constructor; auto.
  intros C. apply H2. apply in_map_iff in C as (z & E & Hz). apply filter_In in Hz as [Hz _]. apply in_map_iff. eauto.
Qed.
Lemma drop_in x l t : In t (drop x l) -> In t l.
Proof. unfold drop. rewrite filter_In. tauto. Qed.

Definition p_stride (p : expr * string * expr) : expr := fst (fst p).
Definition p_sym (p : expr * string * expr) : string := snd (fst p).
Definition p_dim (p : expr * string * expr) : expr := sadd (ESym (snd (fst p))) (snd p).

(** every coefficient of a peeled list is one of the given ones *)
Lemma peel_parts quot A n : forall l k ps o, peel quot A n l k = Peeled ps o -> forall p, In p ps -> In (p_sym p, p_stride p) l.
Proof.
  induction n as [|n IH]; intros l k ps o H p Hp; cbn [peel] in H.
  - destruct (widest l) as [[x c]|]; [discriminate|]. injection H as <- <-. destruct Hp.
  - destruct (widest l) as [[x c]|] eqn:W; [|injection H as <- <-; destruct Hp]. cbv zeta in H.
    destruct (negb (at_least A (ESym x) 0)); [discriminate|]. destruct (negb _); [discriminate|]. destruct (negb _); [discriminate|].
    destruct (maximum [] A c); [|discriminate]. destruct (maximum _ _ _); [|discriminate]. destruct (negb _); [discriminate|].
    destruct (polynomial_div quot k c) as [[q r]|]; [|discriminate]. destruct (peel quot A n (drop x l) r) as [| |ps' o'] eqn:P; try discriminate. injection H as <- <-.
    destruct Hp as [<-|Hp]; [apply widest_in; exact W|]. eapply drop_in. eapply IH; eauto.
Qed.

(** flat index = sum of stride times peeled dimension + what is left of the offset *)
Lemma peel_val quot A n : forall l k ps o s v kv,
  peel quot A n l k = Peeled ps o -> NoDup (map fst l) -> terms s l = Some v -> eval s k = Some kv ->
  (forall a c z w, eval s a = Some z -> eval s c = Some w -> exists z, eval s (quot a c) = Some z) ->
  exists cs ds ov, evals s (map p_stride ps) cs /\ evals s (map p_dim ps) ds /\ eval s o = Some ov /\ v + kv = dot cs ds + ov.
Proof.
  induction n as [|n IH]; intros l k ps o s v kv H ND T K Q; cbn [peel] in H.
  - destruct (widest l) as [[x c]|] eqn:W; [discriminate|]. injection H as <- <-. destruct l; [|discriminate]. injection T as <-. exists [], [], kv. repeat split; try constructor; auto.
  - destruct (widest l) as [[x c]|] eqn:W; [|injection H as <- <-; destruct l; [|discriminate]; injection T as <-; exists [], [], kv; repeat split; try constructor; auto]. cbv zeta in H.
    destruct (negb (at_least A (ESym x) 0)); [discriminate|]. destruct (negb _); [discriminate|]. destruct (negb _); [discriminate|].
    destruct (maximum [] A c); [|discriminate]. destruct (maximum _ _ _); [|discriminate]. destruct (negb _); [discriminate|].
    destruct (polynomial_div quot k c) as [[q r]|] eqn:PD; [|discriminate]. destruct (peel quot A n (drop x l) r) as [| |ps' o'] eqn:P; try discriminate. injection H as <- <-.
    pose proof (widest_in _ _ W) as Hin. destruct (terms_drop s x c l v ND Hin T) as (cv & a & Ec & Ta & ->).
    destruct (polynomial_div_value quot k c q r s kv cv PD K Ec) as (qv & rv & Eq & Er & ->); [eapply Q; eauto|].
    destruct (IH _ _ _ _ s a rv P (drop_nodup x l ND) Ta Er) as (cs & ds & ov & E1 & E2 & E3 & E4).
    { exact Q. }
    exists (cv :: cs), ((s x + qv) :: ds), ov. cbn [map]. repeat split; auto; [constructor; auto|constructor; auto| cbn [dot]; lia].
    unfold p_dim. cbn [fst snd]. apply eval_ev in Eq. unfold eval. rewrite ev_sadd, Eq. reflexivity.
Qed.

(* ---------------------------------------------------------------- *)
(** * atoms *)
Lemma affine_atoms x e : forall p y, affine x e = Some p -> In y (atoms (fst p)) \/ In y (atoms (snd p)) -> In y (atoms e).
Proof.
  induction e using expr_ind'; intros p y Hp Hy; cbn [affine] in Hp;
    try (destruct (uses _ x) in Hp; [discriminate|]; injection Hp as <-; destruct Hy as [[]|Hy]; exact Hy).
  - destruct (String.eqb x x0); injection Hp as <-; destruct Hy as [Hy|Hy]; try (destruct Hy; fail). exact Hy.
  - revert p Hp Hy. induction l as [|a l IH]; cbn [fold_right]; intros p Hp Hy; [injection Hp as <-; destruct Hy as [[]|[]]|].
    inversion H; subst. destruct (affine x a) as [pa|] eqn:Ea; [|discriminate]. destruct (fold_right _ _ l) as [pl|] eqn:El; [|discriminate]. injection Hp as <-.
    cbn [atoms flat_map]. apply in_or_app. unfold aff_add in Hy. cbn [fst snd] in Hy.
    destruct Hy as [Hy|Hy]; apply atoms_sadd in Hy as [Hy|Hy]; [left; eapply H2; eauto|right; eapply (IH H3); eauto|left; eapply H2; eauto|right; eapply (IH H3); eauto].
  - revert p Hp Hy. induction l as [|a l IH]; cbn [fold_right]; intros p Hp Hy; [injection Hp as <-; destruct Hy as [[]|[]]|].
    inversion H; subst. destruct (affine x a) as [[c1 k1]|] eqn:Ea; [|discriminate]. destruct (fold_right _ _ l) as [[c2 k2]|] eqn:El; [|discriminate].
    cbn [atoms flat_map]. apply in_or_app. unfold aff_mul in Hp.
    assert (G: In y (atoms c1) \/ In y (atoms k1) \/ In y (atoms c2) \/ In y (atoms k2)).
    { destruct (expr_eqb c1 (EInt 0)); [|destruct (expr_eqb c2 (EInt 0)); [|discriminate]]; injection Hp as <-; cbn [fst snd] in Hy; destruct Hy as [Hy|Hy]; apply atoms_smul in Hy; tauto. }
    destruct G as [G|[G|[G|G]]]; [left; eapply (H2 (c1, k1)); eauto|left; eapply (H2 (c1, k1)); eauto|right; eapply (IH H3 (c2, k2)); eauto|right; eapply (IH H3 (c2, k2)); eauto].
Qed.
Lemma affines_atoms xs : forall e l k y, affines xs e = Some (l, k) -> (exists c, In c (map snd l) /\ In y (atoms c)) \/ In y (atoms k) -> In y (atoms e).
Proof.
  induction xs as [|x xs IH]; cbn [affines]; intros e l k y H Hy.
  - injection H as <- <-. destruct Hy as [(c & [] & _)|Hy]; auto.
  - destruct (affine x e) as [[c k0]|] eqn:Ea; [|discriminate]. destruct (affines xs k0) as [[l0 k1]|] eqn:Es; [|discriminate]. injection H as <- <-.
    destruct Hy as [(d & [<-|Hd] & Hy)|Hy]; eapply (affine_atoms x e (c, k0)); eauto; right; cbn [snd]; eapply IH; eauto.
Qed.
Lemma affines_trunc xs : forall e l k, affines xs e = Some (l, k) -> no_trunc e = true -> forall c, In c (map snd l) -> no_trunc c = true.
Proof.
  induction xs as [|x xs IH]; cbn [affines]; intros e l k H N c Hc.
  - injection H as <- <-. destruct Hc.
  - destruct (affine x e) as [[c0 k0]|] eqn:Ea; [|discriminate]. destruct (affines xs k0) as [[l0 k1]|] eqn:Es; [|discriminate]. injection H as <- <-.
    destruct (no_trunc_affine _ _ _ Ea N) as [N1 N2]. cbn [fst snd] in *. destruct Hc as [<-|Hc]; auto. eapply IH; eauto.
Qed.
Lemma mono_expr_atoms ys : forall m acc y, In y (atoms (mono_expr ys m acc)) -> In y (atoms acc) \/ In y ys.
Proof.
  induction ys as [|x ys IH]; intros [|n m] acc y H; cbn [mono_expr] in H; auto. destruct n as [|[|n]].
  - destruct (IH _ _ _ H); cbn [In]; auto.
  - destruct (IH _ _ _ H) as [H1|H1]; cbn [In]; auto. apply atoms_smul in H1 as [H1|[H1|[]]]; auto.
  - destruct (IH _ _ _ H) as [H1|H1]; cbn [In]; auto. apply atoms_smul in H1 as [H1|[H1|[]]]; auto.
Qed.
Lemma of_poly_atoms ys p y : In y (atoms (of_poly ys p)) -> In y ys.
Proof.
  induction p as [|[m c] p IH]; cbn [of_poly fold_right fst snd]; [intros []|]. fold (of_poly ys p). intros H. apply atoms_sadd in H as [H|H]; auto.
  apply mono_expr_atoms in H as [[]|H]; auto.
Qed.
Lemma polynomial_div_atoms quot a c q r y : polynomial_div quot a c = Some (q, r) ->
  (forall y, In y (atoms (quot a c)) -> In y (atoms a) \/ In y (atoms c)) ->
  In y (atoms q) \/ In y (atoms r) -> In y (atoms a) \/ In y (atoms c).
Proof.
  intros H Q Hy. unfold polynomial_div in H. destruct (expr_eqb a (EInt 0)); [injection H as <- <-; destruct Hy as [[]|[]]|]. cbv zeta in H.
  set (xs := nodup string_dec (atoms a ++ atoms c)) in *. assert (X: In y xs -> In y (atoms a) \/ In y (atoms c)) by (unfold xs; rewrite nodup_In, in_app_iff; auto).
  destruct (to_poly xs c) as [Sp|].
  - destruct (to_poly xs a) as [D|]; [|injection H as <- <-; destruct Hy as [[]|Hy]; auto].
    destruct (pdiv 100 D Sp [] []) as [[Qp Rp]|]; [|discriminate]. injection H as <- <-. destruct Hy as [Hy|Hy]; apply of_poly_atoms in Hy; auto.
  - injection H as <- <-. destruct Hy as [Hy|Hy]; auto. apply atoms_ssub in Hy as [Hy|Hy]; auto. apply atoms_smul in Hy as [Hy|Hy]; auto.
Qed.

(* ---------------------------------------------------------------- *)
(** the value below position j stays under stride_j: the check the code means to make *)
Fixpoint below (s : env) (ps : list (expr * string)) : Prop :=
  match ps with
  | [] => True
  | (c, x) :: r => (exists cv cs, eval s c = Some cv /\ evals s (map fst r) cs /\ dot cs (map (fun p => s (snd p)) r) < cv) /\ below s r
  end.
Definition base (p : expr * string * expr) : expr * string := fst p.

Lemma at_least_val A e z s v : at_least A e z = true -> sat_dep s A -> no_trunc_A A -> no_trunc e = true -> eval s e = Some v -> z <= v.
Proof.
  unfold at_least. destruct (minimum [] A e) as [m|] eqn:M; [|discriminate]. intros H HA HT N Hv. apply eval_ev in Hv.
  unfold minimum in M. revert M. generalize max_depth. intros dp M. destruct (minmax_dep_sound s A [] dp HA HT e N) as [L _]. specialize (L _ M). rewrite Hv in L.
  destruct m; cbn in H; try discriminate.
  - destruct (z <=? z0) eqn:Q; [|discriminate]. apply Z.leb_le in Q. cbn in L. assert (z0 <= v) by (apply L; congruence). lia.
  - cbn in L. exfalso. apply L; congruence.
Qed.
Lemma rest_trunc l : (forall c, In c (map snd l) -> no_trunc c = true) -> no_trunc (rest l) = true.
Proof.
  induction l as [|[x c] l IH]; cbn [rest fold_right map fst snd]; intros H; [reflexivity|]. fold (rest l). apply no_trunc_sadd; [|apply IH; intros; apply H; right; auto].
  apply no_trunc_smul; [apply H; left; reflexivity|reflexivity].
Qed.

(** the peeled digits, in mixed radix *)
Lemma peel_radix quot A n : forall l k ps o s v,
  peel quot A n l k = Peeled ps o -> NoDup (map fst l) -> terms s l = Some v -> sat_dep s A -> no_trunc_A A ->
  (forall c, In c (map snd l) -> no_trunc c = true) -> below s (map base ps) ->
  exists cs, evals s (map p_stride ps) cs /\ mixed_radix cs (map (fun p => s (p_sym p)) ps) /\ v = dot cs (map (fun p => s (p_sym p)) ps).
Proof.
  induction n as [|n IH]; intros l k ps o s v H ND T HA HT HN B; cbn [peel] in H.
  - destruct (widest l) as [[x c]|] eqn:W; [discriminate|]. injection H as <- <-. destruct l; [|discriminate]. injection T as <-. exists []. repeat split; constructor.
  - destruct (widest l) as [[x c]|] eqn:W; [|injection H as <- <-; destruct l; [|discriminate]; injection T as <-; exists []; repeat split; constructor]. cbv zeta in H.
    destruct (negb (at_least A (ESym x) 0)); [discriminate|]. destruct (negb (at_least A c 1)); [discriminate|]. destruct (at_least A (rest (drop x l)) 0) eqn:AL; cbn [negb] in H; [|discriminate].
    destruct (maximum [] A c); [|discriminate]. destruct (maximum _ _ _); [|discriminate]. destruct (negb _); [discriminate|].
    destruct (polynomial_div quot k c) as [[q r]|] eqn:PD; [|discriminate]. destruct (peel quot A n (drop x l) r) as [| |ps' o'] eqn:P; try discriminate. injection H as <- <-.
    pose proof (widest_in _ _ W) as Hin. destruct (terms_drop s x c l v ND Hin T) as (cv & a & Ec & Ta & ->).
    cbn [map base below fst] in B. destruct B as [(cv' & cs' & Ec' & Es' & Lt) B].
    assert (HN' : forall c0, In c0 (map snd (drop x l)) -> no_trunc c0 = true).
    { intros d Hd. apply HN. apply in_map_iff in Hd as (t & <- & Ht). apply in_map. eapply drop_in; eauto. }
    destruct (IH _ _ _ _ s a P (drop_nodup x l ND) Ta HA HT HN' B) as (cs & E1 & E2 & E3).
    assert (cv' = cv) by congruence. subst cv'. assert (cs' = cs).
    { clear - E1 Es'. unfold evals in *. rewrite map_map in Es'. change (fun x : expr * string * expr => fst (base x)) with p_stride in Es'.
      revert cs' Es'. induction E1; intros cs' H'; inversion H'; subst; auto. f_equal; [congruence|auto]. }
    subst cs'. rewrite map_map in Lt. change (fun x : expr * string * expr => s (snd (base x))) with (fun p => s (p_sym p)) in Lt.
    pose proof (at_least_val A _ 0 s a AL HA HT (rest_trunc _ HN') (terms_rest _ _ _ Ta)).
    exists (cv :: cs). cbn [map]. change (p_sym (c, x, q)) with x. change (p_stride (c, x, q)) with c. cbn [mixed_radix dot]. split; [constructor; auto|]. split; [split; [|auto]|]; lia.
Qed.

(** strides, offsets and shares depend on the fixed symbols only *)
Lemma peel_atoms quot A n : forall l k ps o (P : string -> Prop),
  peel quot A n l k = Peeled ps o -> (forall a c y, In y (atoms (quot a c)) -> In y (atoms a) \/ In y (atoms c)) ->
  (forall c y, In c (map snd l) -> In y (atoms c) -> P y) -> (forall y, In y (atoms k) -> P y) ->
  forall p y, In p ps -> In y (atoms (p_stride p)) \/ In y (atoms (snd p)) -> P y.
Proof.
  induction n as [|n IH]; intros l k ps o Pr H Q Hl Hk p y Hp Hy; cbn [peel] in H.
  - destruct (widest l) as [[x c]|]; [discriminate|]. injection H as <- <-. destruct Hp.
  - destruct (widest l) as [[x c]|] eqn:W; [|injection H as <- <-; destruct Hp]. cbv zeta in H.
    destruct (negb (at_least A (ESym x) 0)); [discriminate|]. destruct (negb _); [discriminate|]. destruct (negb _); [discriminate|].
    destruct (maximum [] A c); [|discriminate]. destruct (maximum _ _ _); [|discriminate]. destruct (negb _); [discriminate|].
    destruct (polynomial_div quot k c) as [[q r]|] eqn:PD; [|discriminate]. destruct (peel quot A n (drop x l) r) as [| |ps' o'] eqn:P; try discriminate. injection H as <- <-.
    assert (Hc: In c (map snd l)) by (apply in_map_iff; exists (x, c); split; auto; apply widest_in; exact W).
    assert (G: forall y, In y (atoms q) \/ In y (atoms r) -> Pr y).
    { intros z Hz. destruct (polynomial_div_atoms quot k c q r z PD (Q k c) Hz) as [Hz'|Hz']; eauto. }
    destruct Hp as [<-|Hp].
    + unfold p_stride in Hy. cbn [fst snd] in Hy. destruct Hy as [Hy|Hy]; eauto.
    + eapply (IH _ _ _ _ Pr P Q); eauto. intros d z Hd Hz. apply in_map_iff in Hd as (t & <- & Ht). apply (Hl (snd t)); auto. apply in_map. eapply drop_in; eauto.
Qed.
