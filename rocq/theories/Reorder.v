(** Reordering of executed instances whose access logs do not conflict.

    An item [v] stands for one execution ([f v a b]) with access log [tr v].
    [P] marks private cells: every instance writes them before reading them, and
    their final values are not compared. *)
From Coq Require Import Permutation.
From Verif Require Import Sym SymFacts IR IRFacts IRRefine PassCFG PassInline PassCFGProofs2 LoopTile LoopIter Trace.

Definition pcell := string -> list Z -> bool.
(** no cell outside [P] is written by one and accessed by the other (a read after
    an own write is covered by that write) *)
Definition no_conflict (P : pcell) (T1 T2 : trace) : Prop :=
  forall x j, P x j = false ->
    (written T1 x j -> ~ written T2 x j /\ ~ exposed T2 x j) /\ (written T2 x j -> ~ exposed T1 x j).
(** private cells are never read before they are written *)
Definition private (P : pcell) (T : trace) : Prop := forall x j, P x j = true -> ~ exposed T x j.

Lemma no_conflict_sym P T1 T2 : no_conflict P T1 T2 -> no_conflict P T2 T1.
Proof. intros H x j Hx. specialize (H x j Hx). tauto. Qed.

Section Items.
  Context {A : Type}.
  Variable f : A -> rel.
  Variable tr : A -> trace.
  Variable P : pcell.
  Hypothesis Loc : forall v a b, f v a b -> local (f v) (tr v) a b.

  Lemma item_priv v a b a2 : private P (tr v) -> f v a b -> eqP P a a2 -> exists b2, f v a2 b2 /\ eqP P b b2.
  Proof.
    intros C H E. destruct (Loc v a b H) as [F L]. destruct (L a2) as (b2 & H2 & F2 & W2).
    { intros x j Hx. apply E. destruct (P x j) eqn:Px; [elim (C x j Px Hx)|reflexivity]. }
    exists b2. split; [exact H2|]. intros x j Px. destruct (written_dec (tr v) x j) as [W|N]; [apply W2; exact W|].
    rewrite F, F2 by exact N. apply E. exact Px.
  Qed.
  Lemma item_ext v : ext (f v).
  Proof.
    intros a a' b H E. destruct (Loc v a a' H) as [F L]. destruct (L b) as (b2 & H2 & F2 & W2).
    { intros x j _. apply steq_at. exact E. }
    exists b2. split; [exact H2|]. apply steq_intro. intros x j. destruct (written_dec (tr v) x j) as [W|N]; [apply W2; exact W|].
    rewrite F, F2 by exact N. apply steq_at. exact E.
  Qed.
  Lemma item_swap v w a m b a2 : private P (tr v) -> private P (tr w) -> no_conflict P (tr v) (tr w) ->
    f v a m -> f w m b -> eqP P a a2 -> exists m2 b2, f w a2 m2 /\ f v m2 b2 /\ eqP P b b2.
  Proof.
    intros Cv Cw NC Hv Hw E.
    destruct (Loc v a m Hv) as [Fv Lv]. destruct (Loc w m b Hw) as [Fw Lw].
    destruct (Lw a2) as (m2 & Hw2 & Fw2 & Ww2).
    { intros x j Hx. destruct (P x j) eqn:Px; [elim (Cw x j Px Hx)|].
      rewrite <- (E x j Px). apply Fv. intros W. exact (proj2 (proj1 (NC x j Px) W) Hx). }
    destruct (Lv m2) as (b2 & Hv2 & Fv2 & Wv2).
    { intros x j Hx. destruct (P x j) eqn:Px; [elim (Cv x j Px Hx)|].
      rewrite Fw2; [apply E; exact Px|]. intros W. exact (proj2 (NC x j Px) W Hx). }
    exists m2, b2. split; [exact Hw2|]. split; [exact Hv2|]. intros x j Px. destruct (NC x j Px) as [N1 N2].
    destruct (written_dec (tr v) x j) as [W|N].
    - rewrite (Fw x j); [apply Wv2; exact W|]. apply N1; exact W.
    - rewrite (Fv2 x j N). destruct (written_dec (tr w) x j) as [W'|N']; [apply Ww2; exact W'|].
      rewrite (Fw x j N'), (Fv x j N), (Fw2 x j N'). apply E. exact Px.
  Qed.

  Definition good (l : list A) : Prop := Forall (fun v => private P (tr v)) l.

  Lemma items_app l1 l2 a b : iterL f (l1 ++ l2) a b <-> exists m, iterL f l1 a m /\ iterL f l2 m b.
  Proof. apply iterL_app. intros v. apply item_ext. Qed.
  Lemma items_priv l : good l -> forall a b a2, iterL f l a b -> eqP P a a2 -> exists b2, iterL f l a2 b2 /\ eqP P b b2.
  Proof.
    induction l as [|v l IH]; simpl; intros G a b a2 H E.
    - exists a2. split; [apply eqx_refl|]. eapply eqP_trans; [|exact E]. apply eqP_sym, steq_eqP. exact H.
    - inversion G; subst. destruct H as (m & Hv & H). destruct (item_priv v a m a2) as (m2 & Hv2 & E2); auto.
      destruct (IH ltac:(assumption) m b m2 H E2) as (b2 & Hb & Eb). exists b2. split; [|exact Eb]. eauto.
  Qed.
  (** one item moves behind a list it does not conflict with *)
  Lemma move_back v l : private P (tr v) -> good l -> (forall w, In w l -> no_conflict P (tr v) (tr w)) ->
    forall a b a2, iterL f (v :: l) a b -> eqP P a a2 -> exists b2, iterL f (l ++ [v]) a2 b2 /\ eqP P b b2.
  Proof.
    intros Cv. induction l as [|w l IH]; intros G NC a b a2 H E.
    - apply (items_priv [v]) with (a := a); auto. constructor; auto.
    - inversion G; subst. destruct H as (m & Hv & q & Hw & Hl).
      destruct (item_swap v w a m q a2) as (m2 & q2 & Hw2 & Hv2 & E2); auto. { apply NC. left. reflexivity. }
      destruct (items_priv l ltac:(assumption) q b q2 Hl E2) as (b1 & Hl1 & E1).
      destruct (IH ltac:(assumption) ltac:(intros; apply NC; right; assumption) m2 b1 m2) as (b2 & Hb & Eb).
      { simpl. eauto. } { apply eqP_refl. }
      exists b2. split; [simpl; eauto|]. eapply eqP_trans; eauto.
  Qed.
  Lemma swap_blocks l1 l2 : good l1 -> good l2 -> (forall v w, In v l1 -> In w l2 -> no_conflict P (tr v) (tr w)) ->
    forall a b a2, iterL f (l1 ++ l2) a b -> eqP P a a2 -> exists b2, iterL f (l2 ++ l1) a2 b2 /\ eqP P b b2.
  Proof.
    induction l1 as [|v l1 IH]; intros G1 G2 NC a b a2 H E.
    - rewrite app_nil_r. apply (items_priv l2) with (a := a); auto.
    - inversion G1; subst. simpl in H. destruct H as (m & Hv & H).
      destruct (item_priv v a m a2) as (m2 & Hv2 & E2); auto.
      destruct (IH ltac:(assumption) G2 ltac:(intros; apply NC; auto; right; auto) m b m2 H E2) as (b2 & Hb & Eb).
      apply items_app in Hb as (q & Hb1 & Hb2).
      destruct (move_back v l2 ltac:(assumption) G2 ltac:(intros; apply NC; auto; left; auto) a2 q a2) as (q2 & Hq & Eq).
      { simpl. eauto. } { apply eqP_refl. }
      destruct (items_priv l1 ltac:(assumption) q b2 q2 Hb2 Eq) as (b3 & K3 & E3).
      exists b3. split; [|eapply eqP_trans; eauto]. change (v :: l1) with ([v] ++ l1). rewrite app_assoc. apply items_app. eauto.
  Qed.
  (** any permutation of pairwise independent items *)
  Lemma permute l l' : Permutation l l' -> good l -> ForallOrdPairs (fun v w => no_conflict P (tr v) (tr w)) l ->
    forall a b a2, iterL f l a b -> eqP P a a2 -> exists b2, iterL f l' a2 b2 /\ eqP P b b2.
  Proof.
    intros Pm. induction Pm as [|v l l' Pm IH|v w l|l l' l'' P1 IH1 P2 IH2]; intros G NC a b a2 H E.
    - apply (items_priv []) with (a := a); auto.
    - inversion G; subst. inversion NC; subst. destruct H as (m & Hv & H).
      destruct (item_priv v a m a2) as (m2 & Hv2 & E2); auto.
      destruct (IH ltac:(assumption) ltac:(assumption) m b m2 H E2) as (b2 & Hb & Eb). exists b2. split; [simpl; eauto|exact Eb].
    - inversion G as [|? ? G1 G2]; subst. inversion G2; subst. inversion NC as [|? ? N1 N2]; subst.
      destruct H as (m & Hv & q & Hw & H). destruct (item_swap w v a m q a2) as (m2 & q2 & Hw2 & Hv2 & E2); auto.
      { rewrite Forall_forall in N1. apply N1. left. reflexivity. }
      destruct (items_priv l ltac:(assumption) q b q2 H E2) as (b2 & Hb & Eb). exists b2. split; [simpl; eauto|exact Eb].
    - destruct (IH1 G NC a b a2 H E) as (b1 & H1 & E1).
      destruct (IH2) with (a := a2) (b := b1) (a2 := a2) as (b2 & H2 & E2); auto.
      + unfold good in *. rewrite Forall_forall in *. intros v Hv. apply G. eapply Permutation_in; [apply Permutation_sym; exact P1|exact Hv].
      + clear - P1 NC. induction P1.
        * constructor.
        * inversion NC; subst. constructor; auto. rewrite Forall_forall in *. intros y Hy. apply H1. eapply Permutation_in; [apply Permutation_sym; exact P1|exact Hy].
        * inversion NC as [|? ? N1 N2]; subst. inversion N2 as [|? ? N3 N4]; subst. inversion N1; subst. constructor; [|constructor]; auto.
          constructor; auto. apply no_conflict_sym. assumption.
        * auto.
      + apply eqP_refl.
      + exists b2. split; [exact H2|]. eapply eqP_trans; eauto.
  Qed.

  (** Rows to columns. *)
  Fixpoint addrow (r : list A) (cs : list (list A)) : list (list A) :=
    match r, cs with x :: r', c :: cs' => (x :: c) :: addrow r' cs' | _, _ => [] end.
  Lemma addrow_run r : forall cs, List.length r = List.length cs -> good r -> good (concat cs) ->
    (forall v w, In v r -> In w (concat cs) -> no_conflict P (tr v) (tr w)) ->
    forall a b a2, iterL f (r ++ concat cs) a b -> eqP P a a2 -> exists b2, iterL f (concat (addrow r cs)) a2 b2 /\ eqP P b b2.
  Proof.
    induction r as [|x r IH]; intros [|c cs] L G1 G2 NC a b a2 H E; try discriminate.
    - apply (items_priv []) with (a := a); auto.
    - simpl in *. inversion G1; subst. apply Forall_app in G2 as [Gc Gcs].
      destruct H as (m & Hx & H). destruct (item_priv x a m a2) as (m2 & Hx2 & E2); auto.
      rewrite app_assoc in H. apply items_app in H as (q & K1 & K2).
      destruct (swap_blocks r c ltac:(assumption) Gc) with (a := m) (b := q) (a2 := m2) as (q2 & K3 & E3); auto.
      { intros v w Hv Hw. apply NC; auto. apply in_or_app. auto. }
      destruct (items_priv (concat cs) Gcs q b q2 K2 E3) as (b1 & K4 & E4).
      apply items_app in K3 as (q3 & K5 & K6).
      destruct (IH cs ltac:(lia) ltac:(assumption) Gcs) with (a := q3) (b := b1) (a2 := q3) as (b2 & K7 & E7).
      { intros v w Hv Hw. apply NC; auto. apply in_or_app. auto. } { apply items_app. eauto. } { apply eqP_refl. }
      exists b2. split; [|eapply eqP_trans; eauto]. exists m2. split; [exact Hx2|]. apply items_app. eauto.
  Qed.
  Definition columns (n : nat) (rs : list (list A)) : list (list A) := fold_right addrow (repeat [] n) rs.
  Lemma addrow_len r : forall cs, List.length r = List.length cs -> List.length (addrow r cs) = List.length r.
  Proof. induction r as [|x r IH]; intros [|c cs] L; simpl in *; try discriminate; auto. Qed.
  Lemma columns_len n rs : Forall (fun r => List.length r = n) rs -> List.length (columns n rs) = n.
  Proof. induction 1 as [|r rs H _ IH]; simpl; [apply repeat_length|]. rewrite addrow_len; congruence. Qed.
  Lemma concat_repeat_nil n : concat (repeat (@nil A) n) = []. Proof. induction n; auto. Qed.
  Lemma addrow_perm r : forall cs, List.length r = List.length cs -> Permutation (r ++ concat cs) (concat (addrow r cs)).
  Proof.
    induction r as [|x r IH]; intros [|c cs] L; simpl in *; try discriminate; auto.
    constructor. rewrite app_assoc. rewrite (Permutation_app_comm r c), <- app_assoc. apply Permutation_app_head. apply IH. lia.
  Qed.
  Lemma columns_perm n rs : Forall (fun r => List.length r = n) rs -> Permutation (concat rs) (concat (columns n rs)).
  Proof.
    induction 1 as [|r rs H F IH]; simpl; [rewrite concat_repeat_nil; auto|].
    rewrite IH. apply addrow_perm. rewrite columns_len; auto.
  Qed.
  Lemma columns_run n rs : Forall (fun r => List.length r = n) rs -> good (concat rs) ->
    ForallOrdPairs (fun r1 r2 => forall v w, In v r1 -> In w r2 -> no_conflict P (tr v) (tr w)) rs ->
    forall a b a2, iterL f (concat rs) a b -> eqP P a a2 -> exists b2, iterL f (concat (columns n rs)) a2 b2 /\ eqP P b b2.
  Proof.
    induction rs as [|r rs IH]; intros L G NC a b a2 H E.
    - simpl in *. rewrite concat_repeat_nil. apply (items_priv []) with (a := a); auto.
    - inversion L; subst. inversion NC as [|? ? N1 N2]; subst. simpl in *. apply Forall_app in G as [G1 G2].
      apply items_app in H as (m & K1 & K2).
      destruct (items_priv r G1 a m a2 K1 E) as (m2 & K3 & E3).
      destruct (IH ltac:(assumption) G2 N2 m b m2 K2 E3) as (b1 & K4 & E4).
      assert (Pc: Permutation (concat rs) (concat (columns (List.length r) rs))) by (apply columns_perm; assumption).
      destruct (addrow_run r (columns (List.length r) rs)) with (a := a2) (b := b1) (a2 := a2) as (b2 & K7 & E7).
      + rewrite columns_len; auto.
      + exact G1.
      + unfold good in *. rewrite Forall_forall in *. intros v Hv. apply G2. eapply Permutation_in; [apply Permutation_sym; exact Pc|exact Hv].
      + intros v w Hv Hw. eapply Permutation_in in Hw; [|apply Permutation_sym; exact Pc]. apply in_concat in Hw as (r2 & Hr & Hw).
        rewrite Forall_forall in N1. eapply N1; eauto.
      + apply items_app. eauto.
      + apply eqP_refl.
      + exists b2. split; [exact K7|]. eapply eqP_trans; eauto.
  Qed.
  (** first halves before second halves: c1 r1 c2 r2 ... to c1 c2 ... r1 r2 ... *)
  Lemma split_halves (cs rs : list A) : List.length cs = List.length rs -> good cs -> good rs ->
    (forall p q v w, (p < q)%nat -> nth_error rs p = Some v -> nth_error cs q = Some w -> no_conflict P (tr v) (tr w)) ->
    forall a b a2, iterL f (concat (map (fun vw => [fst vw; snd vw]) (combine cs rs))) a b -> eqP P a a2 ->
    exists b2, iterL f (cs ++ rs) a2 b2 /\ eqP P b b2.
  Proof.
    revert rs. induction cs as [|c cs IH]; intros [|r rs] L G1 G2 NC a b a2 H E; try discriminate.
    - apply (items_priv []) with (a := a); auto.
    - simpl in H. inversion G1; subst. inversion G2; subst. destruct H as (m & Hc & q & Hr & H).
      destruct (item_priv c a m a2) as (m2 & Hc2 & E2); auto.
      destruct (item_priv r m q m2) as (q2 & Hr2 & E3); auto.
      destruct (IH rs ltac:(simpl in *; lia) ltac:(assumption) ltac:(assumption)) with (a := q) (b := b) (a2 := q2) as (b1 & K1 & E1); auto.
      { intros p p' v w Lt Hv Hw. apply (NC (S p) (S p') v w); auto. lia. }
      apply items_app in K1 as (q3 & K4 & K5).
      destruct (move_back r cs ltac:(assumption) ltac:(assumption)) with (a := m2) (b := q3) (a2 := m2) as (q4 & K6 & E6).
      { intros w Hw. apply In_nth_error in Hw as (p & Hw). apply (NC O (S p) r w); auto. lia. } { simpl. eauto. } { apply eqP_refl. }
      destruct (items_priv rs ltac:(assumption) q3 b1 q4 K5 E6) as (b2 & K7 & E7).
      exists b2. split; [|eapply eqP_trans; eauto]. simpl. exists m2. split; [exact Hc2|].
      change (r :: rs) with ([r] ++ rs). rewrite app_assoc. apply items_app. eauto.
  Qed.
End Items.
