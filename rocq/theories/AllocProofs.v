(** Proofs about Alloc.v: executions in two memories that differ in buffers the program
    cannot reach. *)
From Verif Require Import Sym SymFacts Alloc.

Scheme run_mind := Minimality for run Sort Prop
  with runs_mind := Minimality for runs Sort Prop.
Combined Scheme run_both from run_mind, runs_mind.

Lemma ideqb_eq a b : ideqb a b = true <-> a = b.
Proof.
  unfold ideqb. rewrite andb_true_iff, String.eqb_eq, Nat.eqb_eq. destruct a, b; simpl. split; [intros [-> ->]; reflexivity|intros E; injection E; auto].
Qed.
Lemma ideqb_refl a : ideqb a a = true. Proof. apply ideqb_eq. reflexivity. Qed.
Lemma upd_same {A} (f : string -> A) x v : upd f x v x = v.
Proof. unfold upd. rewrite String.eqb_refl. reflexivity. Qed.
Lemma upd_other {A} (f : string -> A) x v y : x <> y -> upd f x v y = f y.
Proof. intros N. unfold upd. apply String.eqb_neq in N. rewrite N. reflexivity. Qed.
Lemma updh_same {A} (f : ident -> A) x v : updh f x v x = v.
Proof. unfold updh. rewrite ideqb_refl. reflexivity. Qed.
Lemma updh_other {A} (f : ident -> A) x v y : x <> y -> updh f x v y = f y.
Proof. intros N. unfold updh. destruct (ideqb x y) eqn:E; [apply ideqb_eq in E; contradiction|reflexivity]. Qed.

(** The two memories agree but for the pointers in [X] and the buffers in [H], which
    are not live in the first one. *)
Record rel (X : string -> Prop) (H : ident -> Prop) (m m' : machine) : Prop := {
  rl_data : data m = data m';
  rl_ptr : forall y, ~ X y -> ptr m y = ptr m' y;
  rl_cnt : forall y, ~ X y -> cnt m y = cnt m' y;
  rl_heap : forall b, ~ H b -> heap m b = heap m' b;
  rl_none : forall b, H b -> heap m b = None;
  rl_old : forall b, H b -> (snd b < cnt m' (fst b))%nat
}.

Section Rel.
  Variables (X : string -> Prop) (H : ident -> Prop).
  Lemma rel_live m m' b B : rel X H m m' -> heap m b = Some B -> ~ H b /\ heap m' b = Some B.
  Proof.
    intros R E. assert (N : ~ H b) by (intros K; rewrite (rl_none _ _ _ _ R b K) in E; discriminate).
    split; [exact N|]. rewrite <- (rl_heap _ _ _ _ R b N). exact E.
  Qed.
  Lemma rel_set_data m m' y v : rel X H m m' -> rel X H (set_data m y v) (set_data m' y v).
  Proof. intros R. destruct R as [d p c h n l]. constructor; simpl; auto. rewrite d. reflexivity. Qed.
  Lemma rel_set_ptr m m' y q : rel X H m m' -> rel X H (set_ptr m y q) (set_ptr m' y q).
  Proof.
    intros R. destruct R as [d p c h n l]. constructor; simpl; auto.
    intros z Hz. unfold upd. destruct (String.eqb y z); auto.
  Qed.
  Lemma rel_set_heap m m' b B : rel X H m m' -> ~ H b -> rel X H (set_heap m b B) (set_heap m' b B).
  Proof.
    intros R N. destruct R as [d p c h n l]. constructor; simpl; auto.
    - intros z Hz. unfold updh. destruct (ideqb b z); auto.
    - intros z Hz. rewrite updh_other; auto. intros ->. contradiction.
  Qed.
  Lemma rel_new m m' x : rel X H m m' -> ~ X x -> ~ H (x, cnt m x).
  Proof. intros R N K. apply (rl_old _ _ _ _ R) in K. simpl in K. rewrite (rl_cnt _ _ _ _ R x N) in K. lia. Qed.
  Lemma rel_alloc m m' x k z : rel X H m m' -> ~ X x -> rel X H (alloc m x k z) (alloc m' x k z).
  Proof.
    intros R N. pose proof (rel_new _ _ x R N) as Nw. destruct R as [d p c h n l]. pose proof (c x N) as Ec.
    constructor; simpl; auto; rewrite <- ?Ec.
    - intros y Hy. unfold upd. destruct (String.eqb x y); auto.
    - intros y Hy. unfold upd. destruct (String.eqb x y); auto.
    - intros b Hb. unfold updh. destruct (ideqb (x, cnt m x) b); auto.
    - intros b Hb. rewrite updh_other; auto. intros <-. contradiction.
    - intros b Hb. specialize (l b Hb). unfold upd. destruct (String.eqb_spec x (fst b)) as [E|E]; [|exact l].
      rewrite E, <- E in *. rewrite Ec. lia.
  Qed.
  Lemma rel_released m m' x m1 : rel X H m m' -> ~ X x -> released m x m1 ->
    exists m1', released m' x m1' /\ rel X H m1 m1' /\ (forall b, H b -> heap m1' b = heap m' b).
  Proof.
    intros R N Q. destruct Q as [b n f Ep Eh]. destruct (rel_live _ _ _ _ R Eh) as [Nb Eh'].
    exists (set_heap m' b None). split; [|split].
    - apply Released with n f; [|exact Eh']. rewrite <- (rl_ptr _ _ _ _ R x N). exact Ep.
    - apply rel_set_heap; auto.
    - intros c Hc. simpl. rewrite updh_other; auto. intros ->. contradiction.
  Qed.

  Definition quiet (s : stm) : Prop := forall x, X x -> uses x s = false.
  Definition quiets (l : list stm) : Prop := forall x, X x -> existsb (uses x) l = false.
  Lemma quiets_cons a l : quiets (a :: l) -> quiet a /\ quiets l.
  Proof. intros Q. split; intros x Hx; specialize (Q x Hx); simpl in Q; apply orb_false_elim in Q; tauto. Qed.
  Lemma quiet_use s x : quiet s -> uses x s = true -> ~ X x.
  Proof. intros Q U K. rewrite (Q x K) in U. discriminate. Qed.

  Definition step (R1 : machine -> outcome -> machine -> Prop) (m : machine) (o : outcome) (m1 : machine) : Prop :=
    forall m', rel X H m m' -> exists m1', R1 m' o m1' /\ rel X H m1 m1' /\ (forall b, H b -> heap m1' b = heap m' b).

  Lemma rel_at m m' x e b i B : rel X H m m' -> ~ X x -> at_cell m x e b i B -> ~ H b /\ at_cell m' x e b i B.
  Proof.
    intros R N (k & j & Ep & Eh & Ee & Ei & Hi). destruct (rel_live _ _ _ _ R Eh) as [Nb Eh']. split; [exact Nb|].
    exists k, j. rewrite <- (rl_ptr _ _ _ _ R x N), <- (rl_data _ _ _ _ R). auto 6.
  Qed.

  Theorem run_rel :
    (forall s m o m1, run s m o m1 -> quiet s -> step (run s) m o m1) /\
    (forall l m o m1, runs l m o m1 -> quiets l -> step (runs l) m o m1).
  Proof.
    apply run_both.
    - intros y e m v Ev _ m' R. exists (set_data m' y v). split; [constructor; rewrite <- (rl_data _ _ _ _ R); exact Ev|].
      split; [apply rel_set_data; exact R|reflexivity].
    - intros y x e m b i B v Ha Ec Q m' R. assert (N : ~ X x) by (apply (quiet_use _ _ Q); simpl; apply String.eqb_refl).
      destruct (rel_at _ _ _ _ _ _ _ R N Ha) as [_ Ha']. exists (set_data m' y v). split; [eapply X_load; eassumption|].
      split; [apply rel_set_data; exact R|reflexivity].
    - intros x e v m b i B z Ha Ev Q m' R. assert (N : ~ X x) by (apply (quiet_use _ _ Q); simpl; apply String.eqb_refl).
      destruct (rel_at _ _ _ _ _ _ _ R N Ha) as [Nb Ha']. eexists. split; [eapply X_store; [exact Ha'|rewrite <- (rl_data _ _ _ _ R); exact Ev]|].
      split; [apply rel_set_heap; auto|]. intros c Hc. simpl. rewrite updh_other; auto. intros ->. contradiction.
    - intros y x e m b k j Ep Ej Q m' R.
      assert (N : ~ X x) by (apply (quiet_use _ _ Q); simpl; rewrite String.eqb_refl; apply orb_true_r).
      eexists. split; [eapply X_view; [rewrite <- (rl_ptr _ _ _ _ R x N); exact Ep|rewrite <- (rl_data _ _ _ _ R); exact Ej]|].
      split; [apply rel_set_ptr; exact R|reflexivity].
    - intros x k n m z Ez Hz Q m' R. assert (N : ~ X x) by (apply (quiet_use _ _ Q); simpl; apply String.eqb_refl).
      exists (alloc m' x k z). split; [constructor; [rewrite <- (rl_data _ _ _ _ R); exact Ez|exact Hz]|].
      split; [apply rel_alloc; auto|]. intros c Hc. simpl. rewrite updh_other; auto. intros <-.
      apply (rl_old _ _ _ _ R) in Hc. simpl in Hc. lia.
    - intros x m m1 Hr Q m' R. assert (N : ~ X x) by (apply (quiet_use _ _ Q); simpl; apply String.eqb_refl).
      destruct (rel_released _ _ _ _ R N Hr) as (m1' & A & B & C). exists m1'. split; [constructor; exact A|auto].
    - intros c p q m t o m1 Ec _ IH Q m' R.
      assert (Q1 : quiets (if t then p else q)).
      { intros x Hx. specialize (Q x Hx). simpl in Q. apply orb_false_elim in Q as [Q1 Q2]. destruct t; assumption. }
      destruct (IH Q1 m' R) as (m1' & A & B & C). exists m1'. split; [|auto]. apply X_if with t; [|exact A].
      rewrite <- (rl_data _ _ _ _ R). exact Ec.
    - intros c p m Ec _ m' R. exists m'. split; [apply X_stop; rewrite <- (rl_data _ _ _ _ R); exact Ec|]. split; [exact R|reflexivity].
    - intros c p m m1 o m2 Ec _ IH1 _ IH2 Q m' R. destruct (IH1 Q m' R) as (m1' & A & B & C). destruct (IH2 Q m1' B) as (m2' & A2 & B2 & C2).
      exists m2'. split; [eapply X_again; [rewrite <- (rl_data _ _ _ _ R); exact Ec|exact A|exact A2]|]. split; [exact B2|].
      intros b Hb. rewrite C2, C; auto.
    - intros c p m v m1 Ec _ IH Q m' R. destruct (IH Q m' R) as (m1' & A & B & C). exists m1'. split; [|auto].
      apply X_leave; [rewrite <- (rl_data _ _ _ _ R); exact Ec|exact A].
    - intros m _ m' R. exists m'. split; [constructor|]. split; [exact R|reflexivity].
    - intros e m v Ev _ m' R. exists m'. split; [constructor; rewrite <- (rl_data _ _ _ _ R); exact Ev|]. split; [exact R|reflexivity].
    - intros m _ m' R. exists m'. split; [constructor|]. split; [exact R|reflexivity].
    - intros a p m m1 o m2 _ IH1 _ IH2 Q m' R. apply quiets_cons in Q as [Q1 Q2].
      destruct (IH1 Q1 m' R) as (m1' & A & B & C). destruct (IH2 Q2 m1' B) as (m2' & A2 & B2 & C2).
      exists m2'. split; [eapply X_cons; eassumption|]. split; [exact B2|]. intros b Hb. rewrite C2, C; auto.
    - intros a p m v m1 _ IH Q m' R. apply quiets_cons in Q as [Q1 Q2].
      destruct (IH Q1 m' R) as (m1' & A & B & C). exists m1'. split; [apply X_exit; exact A|auto].
  Qed.
  Lemma runs_rel l m o m1 m' : runs l m o m1 -> quiets l -> rel X H m m' ->
    exists m1', runs l m' o m1' /\ rel X H m1 m1' /\ (forall b, H b -> heap m1' b = heap m' b).
  Proof. intros A B C. exact (proj2 run_rel l m o m1 A B m' C). Qed.
End Rel.

(** A container that is not used keeps its pointer and its counter. *)
Theorem run_frame x :
  (forall s m o m1, run s m o m1 -> uses x s = false -> ptr m1 x = ptr m x /\ cnt m1 x = cnt m x) /\
  (forall l m o m1, runs l m o m1 -> existsb (uses x) l = false -> ptr m1 x = ptr m x /\ cnt m1 x = cnt m x).
Proof.
  apply run_both; simpl; auto.
  - intros y z e m b k j _ _ U. apply orb_false_elim in U as [U _]. apply String.eqb_neq in U. rewrite upd_other; auto.
  - intros z k n m w _ _ U. apply String.eqb_neq in U. rewrite !upd_other; auto.
  - intros z m m1 Q U. destruct Q. auto.
  - intros c p q m t o m1 _ _ IH U. apply orb_false_elim in U as [U1 U2]. destruct t; auto.
  - intros c p m m1 o m2 _ _ IH1 _ IH2 U. destruct (IH1 U) as [A B]. destruct (IH2 U) as [C D]. rewrite C, D. auto.
  - intros a p m m1 o m2 _ IH1 _ IH2 U. apply orb_false_elim in U as [U1 U2]. destruct (IH1 U1) as [A B]. destruct (IH2 U2) as [C D]. rewrite C, D. auto.
  - intros a p m v m1 _ IH U. apply orb_false_elim in U as [U1 U2]. auto.
Qed.
(** A scalar that is not written keeps its value. *)
Theorem run_scalar y :
  (forall s m o m1, run s m o m1 -> sets y s = false -> data m1 y = data m y) /\
  (forall l m o m1, runs l m o m1 -> existsb (sets y) l = false -> data m1 y = data m y).
Proof.
  apply run_both; simpl; auto.
  - intros z e m v _ U. apply String.eqb_neq in U. rewrite upd_other; auto.
  - intros z x e m b i B v _ _ U. apply String.eqb_neq in U. rewrite upd_other; auto.
  - intros z m m1 Q _. destruct Q. reflexivity.
  - intros c p q m t o m1 _ _ IH U. apply orb_false_elim in U as [U1 U2]. destruct t; auto.
  - intros c p m m1 o m2 _ _ IH1 _ IH2 U. rewrite IH2, IH1; auto.
  - intros a p m m1 o m2 _ IH1 _ IH2 U. apply orb_false_elim in U as [U1 U2]. rewrite IH2, IH1; auto.
  - intros a p m v m1 _ IH U. apply orb_false_elim in U as [U1 U2]. auto.
Qed.
Lemma run_has_ret :
  (forall s m o m1, run s m o m1 -> forall v, o = Ret v -> has_ret s = true) /\
  (forall l m o m1, runs l m o m1 -> forall v, o = Ret v -> existsb has_ret l = true).
Proof.
  apply run_both; simpl; try (intros; discriminate); auto.
  - intros c p q m t o m1 _ _ IH v E. apply orb_true_iff. destruct t; eauto.
  - intros a p m m1 o m2 _ _ _ IH2 v E. rewrite (IH2 v E). apply orb_true_r.
  - intros a p m v m1 _ IH v' E. rewrite (IH v' E). reflexivity.
Qed.
Lemma runs_app a b m o m2 : runs (a ++ b) m o m2 <-> (exists m1, runs a m Next m1 /\ runs b m1 o m2) \/ (exists v, o = Ret v /\ runs a m (Ret v) m2).
Proof.
  split.
  - revert m. induction a as [|s a IH]; simpl; intros m R; [left; exists m; split; [constructor|exact R]|].
    inversion R as [|? ? ? m1 ? ? R1 R2|? ? ? v ? R1]; subst.
    + apply IH in R2 as [(m3 & A & B)|(v & -> & A)]; [left|right].
      * exists m3. split; [eapply X_cons; eassumption|exact B].
      * exists v. split; [reflexivity|eapply X_cons; eassumption].
    + right. exists v. split; [reflexivity|apply X_exit; exact R1].
  - intros [(m1 & A & B)|(v & -> & A)]; revert m A; induction a as [|s a IH]; simpl; intros m A.
    + inversion A; subst. exact B.
    + inversion A as [|? ? ? m3 ? ? R1 R2|]; subst. eapply X_cons; eauto.
    + inversion A.
    + inversion A as [|? ? ? m3 ? ? R1 R2|? ? ? w ? R1]; subst; [eapply X_cons; eauto|apply X_exit; exact R1].
Qed.
Theorem run_det :
  (forall s m o m1, run s m o m1 -> forall o' m', run s m o' m' -> o = o' /\ m1 = m') /\
  (forall l m o m1, runs l m o m1 -> forall o' m', runs l m o' m' -> o = o' /\ m1 = m').
Proof.
  assert (At : forall m x e b i B b' i' B', at_cell m x e b i B -> at_cell m x e b' i' B' -> b = b' /\ i = i' /\ B = B').
  { intros m x e b i B b' i' B' (k & j & A1 & A2 & A3 & A4 & _) (k' & j' & C1 & C2 & C3 & C4 & _).
    rewrite A1 in C1. injection C1 as <- <-. rewrite A3 in C3. injection C3 as <-. rewrite A2 in C2. injection C2 as <-. subst. auto. }
  apply run_both.
  - intros y e m v E o' m' R. inversion R; subst. replace v0 with v by congruence. auto.
  - intros y x e m b i B v Ha Ec o' m' R. inversion R as [|? ? ? ? b' i' B' v' Ha' Ec'| | | | | | | | | |]; subst.
    destruct (At _ _ _ _ _ _ _ _ _ Ha Ha') as (<- & <- & <-). replace v' with v by congruence. auto.
  - intros x e v m b i B z Ha Ev o' m' R. inversion R as [| |? ? ? ? b' i' B' z' Ha' Ev'| | | | | | | | |]; subst.
    destruct (At _ _ _ _ _ _ _ _ _ Ha Ha') as (<- & <- & <-). replace z' with z by congruence. auto.
  - intros y x e m b k j E1 E2 o' m' R. inversion R as [| | |? ? ? ? b' k' j' E1' E2'| | | | | | | |]; subst.
    rewrite E1 in E1'. injection E1' as <- <-. replace j' with j by congruence. auto.
  - intros x k n m z E1 E2 o' m' R. inversion R; subst. replace z0 with z by congruence. auto.
  - intros x m m1 Q o' m' R. inversion R as [| | | | |? ? ? Q'| | | | | |]; subst. destruct Q as [b n f A1 A2], Q' as [b' n' f' B1 B2].
    split; [reflexivity|]. rewrite A1 in B1. injection B1 as <-. reflexivity.
  - intros c p q m t o m1 E _ IH o' m' R. inversion R as [| | | | | |? ? ? ? t' ? ? E' R'| | | | |]; subst. rewrite E in E'. injection E' as <-. auto.
  - intros c p m E o' m' R. inversion R; subst; auto; congruence.
  - intros c p m m1 o m2 E _ IH1 _ IH2 o' m' R. inversion R as [| | | | | | | |? ? ? m3 ? ? E' R1 R2|? ? ? ? ? E' R1| |]; subst; [congruence| |].
    + destruct (IH1 _ _ R1) as [_ <-]. auto.
    + destruct (IH1 _ _ R1) as [K _]. discriminate.
  - intros c p m v m1 E _ IH o' m' R. inversion R as [| | | | | | | |? ? ? m3 ? ? E' R1 R2|? ? ? ? ? E' R1| |]; subst; [congruence| |].
    + destruct (IH _ _ R1) as [K _]. discriminate.
    + auto.
  - intros m o' m' R. inversion R; auto.
  - intros e m v E o' m' R. inversion R; subst. replace v0 with v by congruence. auto.
  - intros m o' m' R. inversion R; auto.
  - intros a p m m1 o m2 _ IH1 _ IH2 o' m' R. inversion R as [|? ? ? m3 ? ? R1 R2|? ? ? v ? R1]; subst.
    + destruct (IH1 _ _ R1) as [_ <-]. auto.
    + destruct (IH1 _ _ R1) as [K _]. discriminate.
  - intros a p m v m1 _ IH o' m' R. inversion R as [|? ? ? m3 ? ? R1 R2|? ? ? w ? R1]; subst; [destruct (IH _ _ R1) as [K _]; discriminate|auto].
Qed.
