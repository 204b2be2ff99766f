(** Simulation of managed allocation and release. *)
From Verif Require Import Sym SymFacts Alloc AllocProofs.

Definition none {A} : A -> Prop := fun _ => False.
Definition only {A} (a : A) : A -> Prop := fun b => a = b.
Lemma rel_refl m : rel none none m m.
Proof. constructor; auto; intros b []. Qed.

Lemma set_type_off x f l : ~ In x (map fst l) -> set_type x f l = l.
Proof.
  unfold set_type. induction l as [|[y t] l IH]; simpl; intros N; [reflexivity|]. rewrite IH by auto.
  destruct (String.eqb_spec x y) as [E|E]; [elim N; auto|reflexivity].
Qed.
Lemma set_type_split x f l1 t l2 : ~ In x (map fst l1) -> ~ In x (map fst l2) -> set_type x f (l1 ++ (x, t) :: l2) = l1 ++ (x, f t) :: l2.
Proof.
  intros N1 N2. unfold set_type. rewrite map_app. simpl. rewrite String.eqb_refl.
  fold (set_type x f l1) (set_type x f l2). rewrite !set_type_off; auto.
Qed.
Lemma types_split (l : list (string * storage)) x t : NoDup (map fst l) -> In (x, t) l -> exists l1 l2, l = l1 ++ (x, t) :: l2 /\ ~ In x (map fst l1) /\ ~ In x (map fst l2).
Proof.
  intros ND Hin. apply in_split in Hin as (l1 & l2 & ->). exists l1, l2. split; [reflexivity|].
  rewrite map_app in ND. simpl in ND. apply NoDup_remove_2 in ND. rewrite in_app_iff in ND. tauto.
Qed.

Lemma entry_app a b m m2 : entry (a ++ b) m m2 <-> exists m1, entry a m m1 /\ entry b m1 m2.
Proof.
  split.
  - revert m. induction a as [|[x t] a IH]; simpl; intros m E; [exists m; split; [constructor|exact E]|].
    inversion E as [|? ? ? ? ? S R|? ? ? ? n z ? S Sz Ez Hz R]; subst.
    + apply IH in R as (m1 & A & B). exists m1. split; [apply E_skip|]; auto.
    + apply IH in R as (m1 & A & B). exists m1. split; [eapply E_alloc|]; eauto.
  - intros (m1 & A & B). revert m A. induction a as [|[x t] a IH]; simpl; intros m A.
    + inversion A; subst. exact B.
    + inversion A; subst; [apply E_skip|eapply E_alloc]; eauto.
Qed.
Lemma exits_app a b m m2 : exits (a ++ b) m m2 <-> exists m1, exits a m m1 /\ exits b m1 m2.
Proof.
  split.
  - revert m. induction a as [|[x t] a IH]; simpl; intros m E; [exists m; split; [constructor|exact E]|].
    inversion E as [|? ? ? ? ? S R|? ? ? ? m3 ? S1 S2 Q R]; subst.
    + apply IH in R as (m1 & A & B). exists m1. split; [apply Q_skip|]; auto.
    + apply IH in R as (m1 & A & B). exists m1. split; [eapply Q_free|]; eauto.
  - intros (m1 & A & B). revert m A. induction a as [|[x t] a IH]; simpl; intros m A.
    + inversion A; subst. exact B.
    + inversion A; subst; [apply Q_skip|eapply Q_free]; eauto.
Qed.
Lemma entry_det l : forall m m1 m2, entry l m m1 -> entry l m m2 -> m1 = m2.
Proof.
  induction l as [|[x t] l IH]; intros m m1 m2 A B; inversion A; inversion B; subst; eauto; try congruence.
  replace z0 with z in * by congruence. eauto.
Qed.

Lemma entry_rel (X : string -> Prop) (H : ident -> Prop) l : (forall x, X x -> ~ In x (map fst l)) -> forall m m1 m', entry l m m1 -> rel X H m m' ->
  exists m1', entry l m' m1' /\ rel X H m1 m1' /\ (forall b, H b -> heap m1' b = heap m' b).
Proof.
  induction l as [|[x t] l IH]; intros N m m1 m' E R.
  - inversion E; subst. exists m'. split; [constructor|auto].
  - assert (N2 : forall y, X y -> ~ In y (map fst l)) by (intros y Hy K; apply (N y Hy); right; exact K).
    assert (Nx : ~ X x) by (intros K; apply (N x K); left; reflexivity).
    inversion E as [|? ? ? ? ? S E1|? ? ? ? n z ? S Sz Ez Hz E1]; subst.
    + destruct (IH N2 _ _ _ E1 R) as (m1' & A & B & C). exists m1'. split; [apply E_skip|]; auto.
    + destruct (IH N2 _ _ _ E1 (rel_alloc _ _ _ _ x (st_kind t) z R Nx)) as (m1' & A & B & C). exists m1'.
      split; [eapply E_alloc; eauto; rewrite <- (rl_data _ _ _ _ R); exact Ez|]. split; [exact B|].
      intros b Hb. rewrite C by exact Hb. simpl. rewrite updh_other; [reflexivity|]. intros <-. apply (rl_old _ _ _ _ R) in Hb. simpl in Hb. lia.
Qed.
Lemma exits_rel (X : string -> Prop) (H : ident -> Prop) l : (forall x, X x -> ~ In x (map fst l)) -> forall m m1 m', exits l m m1 -> rel X H m m' ->
  exists m1', exits l m' m1' /\ rel X H m1 m1' /\ (forall b, H b -> heap m1' b = heap m' b).
Proof.
  induction l as [|[x t] l IH]; intros N m m1 m' E R.
  - inversion E; subst. exists m'. split; [constructor|auto].
  - assert (N2 : forall y, X y -> ~ In y (map fst l)) by (intros y Hy K; apply (N y Hy); right; exact K).
    assert (Nx : ~ X x) by (intros K; apply (N x K); left; reflexivity).
    inversion E as [|? ? ? ? ? S E1|? ? ? ? m3 ? S1 S2 Q E1]; subst.
    + destruct (IH N2 _ _ _ E1 R) as (m1' & A & B & C). exists m1'. split; [apply Q_skip|]; auto.
    + destruct (rel_released _ _ _ _ _ _ R Nx Q) as (m3' & A3 & B3 & C3).
      destruct (IH N2 _ _ _ E1 B3) as (m1' & A & B & C). exists m1'. split; [eapply Q_free; eauto|]. split; [exact B|].
      intros b Hb. rewrite C, C3; auto.
Qed.
Lemma exits_ptr l : forall m m1, exits l m m1 -> data m1 = data m /\ ptr m1 = ptr m /\ cnt m1 = cnt m.
Proof.
  induction l as [|[x t] l IH]; intros m m1 E; inversion E as [|? ? ? ? ? S E1|? ? ? ? m3 ? S1 S2 Q E1]; subst; auto.
  destruct (IH _ _ E1) as (A & B & C). rewrite A, B, C. destruct Q. auto.
Qed.
Lemma entry_data l : forall m m1, entry l m m1 -> data m1 = data m.
Proof.
  induction l as [|[x t] l IH]; intros m m1 E; inversion E as [|? ? ? ? ? S E1|? ? ? ? n z ? S Sz Ez Hz E1]; subst; auto.
  rewrite (IH _ _ E1). reflexivity.
Qed.
Lemma entry_frame l x : ~ In x (map fst l) -> forall m m1, entry l m m1 -> ptr m1 x = ptr m x /\ cnt m1 x = cnt m x.
Proof.
  induction l as [|[y t] l IH]; intros N m m1 E; inversion E as [|? ? ? ? ? S E1|? ? ? ? n z ? S Sz Ez Hz E1]; subst; auto.
  - apply IH; auto. intros K. apply N. right. exact K.
  - destruct (IH (fun K => N (or_intror K)) _ _ E1) as [A B]. rewrite A, B. assert (Ny : y <> x) by (intros ->; apply N; left; reflexivity).
    simpl. rewrite !upd_other; auto.
Qed.

(** All buffers are older than the next allocation, and so is what pointers refer to. *)
Definition aged (m : machine) : Prop :=
  (forall b B, heap m b = Some B -> (snd b < cnt m (fst b))%nat) /\
  (forall y b k, ptr m y = Some (b, k) -> (snd b < cnt m (fst b))%nat).
Lemma aged_alloc m x k z : aged m -> aged (alloc m x k z).
Proof.
  intros [A B]. assert (G : forall b : ident, (snd b < cnt m (fst b))%nat -> (snd b < upd (cnt m) x (S (cnt m x)) (fst b))%nat).
  { intros b Hb. unfold upd. destruct (String.eqb_spec x (fst b)) as [E|E]; [rewrite E in *|]; lia. }
  split; simpl.
  - intros b C. unfold updh. destruct (ideqb (x, cnt m x) b) eqn:E.
    + apply ideqb_eq in E. subst b. intros _. simpl. rewrite upd_same. lia.
    + intros Hb. apply G, (A _ _ Hb).
  - intros y b j. unfold upd at 1. destruct (String.eqb x y).
    + intros E. injection E as <- <-. simpl. rewrite upd_same. lia.
    + intros E. apply G, (B _ _ _ E).
Qed.
Lemma aged_released m x m1 : aged m -> released m x m1 -> aged m1.
Proof.
  intros [A B] Q. destruct Q as [b n f Ep Eh]. split; simpl; [|exact B].
  intros c C. unfold updh. destruct (ideqb b c); [discriminate|apply A].
Qed.
Lemma aged_run :
  (forall s m o m1, run s m o m1 -> aged m -> aged m1) /\ (forall l m o m1, runs l m o m1 -> aged m -> aged m1).
Proof.
  apply run_both; auto.
  - intros x e v m b i B z (k & j & Ep & Eh & _) _ [A P]. split; simpl; [|exact P].
    intros c C. unfold updh. destruct (ideqb b c) eqn:E; [|apply A]. apply ideqb_eq in E. subst c. intros _. exact (A _ _ Eh).
  - intros y x e m b k j Ep _ [A P]. split; simpl; [exact A|]. intros w c i. unfold upd. destruct (String.eqb y w); [|apply P].
    intros E. injection E as <- <-. exact (P _ _ _ Ep).
  - intros x k n m z _ _ G. apply aged_alloc. exact G.
  - intros x m m1 Q G. exact (aged_released _ _ _ G Q).
Qed.
Lemma aged_entry l : forall m m1, entry l m m1 -> aged m -> aged m1.
Proof.
  induction l as [|[x t] l IH]; intros m m1 E G; inversion E as [|? ? ? ? ? S E1|? ? ? ? n z ? S Sz Ez Hz E1]; subst; eauto.
  apply (IH _ _ E1). apply aged_alloc. exact G.
Qed.

Lemma rel_drop m m' : rel none none m m' -> forall b, heap (drop_stack m) b = heap (drop_stack m') b.
Proof. intros R b. simpl. rewrite (rl_heap _ _ _ _ R b); auto. Qed.

(** *** Allocation at entry. *)
Section AllocSim.
  Variables (F : func) (pre post : list stm) (x : string) (k : kind) (n : expr) (t : storage).
  Hypothesis Hroot : f_root F = pre ++ SAlloc x k n :: post.
  Hypothesis Hcan : can_alloc F pre (SAlloc x k n) = true.
  Hypothesis Hnd : NoDup (map fst (f_types F)).
  Hypothesis Hty : In (x, t) (f_types F).
  Hypothesis Hun : st_alloc t = false.
  Hypothesis Huf : st_free t = false.
  Hypothesis Hargs : forall y, In y (atoms n) -> existsb (sets y) pre = false.
  Let F1 := apply_alloc F pre (SAlloc x k n) post.

  Lemma unused_before : existsb (uses x) pre = false.
  Proof. unfold can_alloc in Hcan. apply andb_true_iff in Hcan as [_ K]. apply negb_true_iff in K. exact K. Qed.
  Lemma size_kept m o m1 : runs pre m o m1 -> eval (data m1) n = eval (data m) n.
  Proof.
    intros R. unfold eval. rewrite (ev_agree (data m1) (data m)); [reflexivity|]. intros y Hy.
    apply (proj2 (run_scalar y) _ _ _ _ R). apply Hargs. exact Hy.
  Qed.

  Theorem alloc_sim m o mf : aged m -> call F m o mf ->
    (existsb has_ret pre = true -> exists z, eval (data m) n = Some z /\ 0 <= z) ->
    exists mf', call F1 m o mf' /\ data mf' = data mf /\
      (forall b, b <> (x, cnt m x) -> heap mf' b = heap mf b) /\
      ((heap mf' (x, cnt m x) = heap mf (x, cnt m x) /\ exists m1 m2, entry (f_types F1) m m1 /\ runs pre m1 Next m2) \/
       (heap mf (x, cnt m x) = None /\ (k = Stack -> heap mf' (x, cnt m x) = None) /\
        exists v m1 m2, entry (f_types F1) m m1 /\ runs pre m1 (Ret v) m2)).
  Proof.
    intros G C Hsz. destruct C as [m1 m2 m3 En Ru Ex]. pose (id := (x, cnt m x)). fold id.
    destruct (types_split _ _ _ Hnd Hty) as (l1 & l2 & El & N1 & N2).
    assert (E1 : f_types F1 = l1 ++ (x, Sto k (Some n) true (st_free t)) :: l2).
    { unfold F1, apply_alloc. cbn [f_types]. rewrite El. rewrite set_type_split; auto. }
    assert (E2 : f_root F1 = pre ++ post) by reflexivity.
    rewrite El in En, Ex. apply entry_app in En as (ma & Ea & Eb).
    assert (Eb' : entry l2 ma m1) by (inversion Eb; subst; [assumption|congruence]). clear Eb.
    apply exits_app in Ex as (mc & Ec & Ed).
    assert (Ed' : exits l2 mc m3) by (inversion Ed; subst; [assumption|congruence]). clear Ed.
    rewrite Hroot in Ru. apply runs_app in Ru.
    assert (Hz : exists z, eval (data m) n = Some z /\ 0 <= z).
    { destruct Ru as [(mp & Rp & Rq)|(v & -> & Rp)].
      - inversion Rq as [|? ? ? mq ? ? R1 R2|? ? ? w ? R1]; subst; [|inversion R1]. inversion R1; subst. exists z. split; [|assumption].
        rewrite <- (entry_data _ _ _ Ea), <- (entry_data _ _ _ Eb'). rewrite <- (size_kept _ _ _ Rp). assumption.
      - apply Hsz. exact (proj2 run_has_ret _ _ _ _ Rp v eq_refl). }
    destruct Hz as (z & Ez & Hz).
    pose proof (aged_entry _ _ _ Ea G) as Ga. destruct (entry_frame _ _ N1 _ _ Ea) as [Ka1 Ka2].
    assert (Nid : heap ma id = None).
    { destruct (heap ma id) as [B|] eqn:Q; [|reflexivity]. apply (proj1 Ga) in Q. simpl in Q. rewrite Ka2 in Q. lia. }
    assert (R0 : rel (only x) (only id) ma (alloc ma x k z)).
    { constructor; simpl; auto.
      - intros y Hy. rewrite upd_other; auto.
      - intros y Hy. rewrite upd_other; auto.
      - intros b Hb. rewrite Ka2. rewrite updh_other; auto.
      - intros b <-. exact Nid.
      - intros b <-. simpl. rewrite upd_same, Ka2. lia. }
    assert (Off2 : forall y, only x y -> ~ In y (map fst l2)) by (intros y <-; exact N2).
    assert (Off1 : forall y, only x y -> ~ In y (map fst l1)) by (intros y <-; exact N1).
    destruct (entry_rel _ _ _ Off2 _ _ _ Eb' R0) as (m1' & Eb1 & R1 & H1).
    destruct (entry_frame _ _ N2 _ _ Eb1) as [Kb1 Kb2]. destruct (entry_frame _ _ N2 _ _ Eb') as [Kc1 Kc2].
    assert (En' : entry (f_types F1) m m1').
    { rewrite E1. apply entry_app. exists ma. split; [exact Ea|]. eapply E_alloc; [reflexivity|reflexivity| |exact Hz|exact Eb1].
      rewrite (entry_data _ _ _ Ea). exact Ez. }
    assert (Hid : heap m1' id = Some (Buf k z (fun _ => None))).
    { rewrite (H1 id eq_refl). simpl. rewrite Ka2. unfold id. apply updh_same. }
    assert (Qp : quiets (only x) pre) by (intros y <-; apply unused_before).
    destruct Ru as [(mp & Rp & Rq)|(v & -> & Rp)].
    - inversion Rq as [|? ? ? mq ? ? Rm Rr|? ? ? w ? Rm]; subst; [|inversion Rm]. inversion Rm as [| | | |? ? ? ? z' Ez' Hz'| | | | | | |]; subst.
      assert (z' = z).
      { rewrite (size_kept _ _ _ Rp), (entry_data _ _ _ Eb'), (entry_data _ _ _ Ea) in Ez'. congruence. } subst z'.
      destruct (runs_rel _ _ _ _ _ _ _ Rp Qp R1) as (mp' & Rp' & R2 & H2).
      destruct (proj2 (run_frame x) _ _ _ _ Rp unused_before) as [Kp1 Kp2].
      destruct (proj2 (run_frame x) _ _ _ _ Rp' unused_before) as [Kq1 Kq2].
      assert (R3 : rel none none (alloc mp x k z) mp').
      { assert (Cx : cnt mp x = cnt m x) by (rewrite Kp2, Kc2, Ka2; reflexivity).
        constructor; simpl.
        - exact (rl_data _ _ _ _ R2).
        - intros y _. unfold upd. destruct (String.eqb_spec x y) as [<-|Ny].
          + rewrite Kq1, Kb1. simpl. rewrite upd_same, Cx, Ka2. reflexivity.
          + apply (rl_ptr _ _ _ _ R2). exact Ny.
        - intros y _. unfold upd. destruct (String.eqb_spec x y) as [<-|Ny].
          + rewrite Kq2, Kb2. simpl. rewrite upd_same, Cx, Ka2. reflexivity.
          + apply (rl_cnt _ _ _ _ R2). exact Ny.
        - intros b _. rewrite Cx. unfold updh. fold id. destruct (ideqb id b) eqn:Q.
          + apply ideqb_eq in Q. subst b. rewrite (H2 id eq_refl), Hid. reflexivity.
          + apply (rl_heap _ _ _ _ R2). intros K. unfold only in K. subst b. rewrite ideqb_refl in Q. discriminate.
        - intros b [].
        - intros b []. }
      assert (Qn : quiets none post) by (intros y []).
      destruct (runs_rel _ _ _ _ _ _ _ Rr Qn R3) as (m2' & Rr' & R4 & _).
      destruct (exits_rel none none l1 (fun y F => match F with end) _ _ _ Ec R4) as (mc' & Ec' & R5 & _).
      destruct (exits_rel none none l2 (fun y F => match F with end) _ _ _ Ed' R5) as (m3' & Ed1 & R6 & _).
      exists (drop_stack m3'). split; [|split; [|split]].
      + apply Call with m1' m2'; [exact En'| |].
        * rewrite E2. apply runs_app. left. exists mp'. split; [exact Rp'|exact Rr'].
        * rewrite E1. apply exits_app. exists mc'. split; [exact Ec'|]. apply Q_skip; [left; exact Huf|exact Ed1].
      + simpl. symmetry. exact (rl_data _ _ _ _ R6).
      + intros b _. symmetry. apply rel_drop. exact R6.
      + left. split; [symmetry; apply rel_drop; exact R6|]. exists m1', mp'. split; [exact En'|exact Rp'].
    - destruct (runs_rel _ _ _ _ _ _ _ Rp Qp R1) as (m2' & Rp' & R2 & H2).
      destruct (exits_rel _ _ l1 Off1 _ _ _ Ec R2) as (mc' & Ec' & R5 & H5).
      destruct (exits_rel _ _ l2 Off2 _ _ _ Ed' R5) as (m3' & Ed1 & R6 & H6).
      exists (drop_stack m3'). split; [|split; [|split]].
      + apply Call with m1' m2'; [exact En'| |].
        * rewrite E2. apply runs_app. right. exists v. split; [reflexivity|exact Rp'].
        * rewrite E1. apply exits_app. exists mc'. split; [exact Ec'|]. apply Q_skip; [left; exact Huf|exact Ed1].
      + simpl. symmetry. exact (rl_data _ _ _ _ R6).
      + intros b Nb. simpl. rewrite (rl_heap _ _ _ _ R6 b); auto.
      + right. split; [|split].
        * simpl. rewrite (rl_none _ _ _ _ R6 id eq_refl). reflexivity.
        * intros ->. simpl. rewrite (H6 id eq_refl), (H5 id eq_refl), (H2 id eq_refl), Hid. reflexivity.
        * exists v, m1', m2'. split; [exact En'|exact Rp'].
  Qed.
End AllocSim.

(** *** Release at the exits. *)
Definition apart (x : string) (id : ident) (m : machine) : Prop := forall y i, y <> x -> ptr m y <> Some (id, i).
Section Untouched.
  Variables (x : string) (id : ident).
  Hypothesis Hx : fst id = x.
  Definition kept (m m1 : machine) : Prop := ptr m1 x = ptr m x /\ heap m1 id = heap m id /\ apart x id m1.
  Lemma kept_trans a b c : kept a b -> kept b c -> kept a c.
  Proof. intros (A & B & C) (D & E & G). unfold kept. rewrite D, E. auto. Qed.
  Lemma not_x y : String.eqb x y = false -> y <> x.
  Proof. intros E K. apply String.eqb_neq in E. auto. Qed.
  Theorem run_kept :
    (forall s m o m1, run s m o m1 -> apart x id m -> uses x s = false \/ (exists v, o = Ret v /\ ret_after x s = false) -> kept m m1) /\
    (forall l m o m1, runs l m o m1 -> apart x id m -> existsb (uses x) l = false \/ (exists v, o = Ret v /\ rets_after x l = false) -> kept m m1).
  Proof.
    assert (Dec : forall l, ret_after x (SIf (CBool true) l []) = rets_after x l).
    { intros l. simpl. rewrite orb_false_r. induction l as [|a l IH]; [reflexivity|]. simpl. rewrite IH. reflexivity. }
    assert (DecI : forall c p q, ret_after x (SIf c p q) = rets_after x p || rets_after x q).
    { intros c p q. rewrite <- (Dec p), <- (Dec q). simpl. rewrite !orb_false_r. reflexivity. }
    assert (Refl : forall m, apart x id m -> kept m m) by (intros m A; repeat split; auto).
    assert (One : forall s m m1, apart x id m -> uses x s = false \/ (exists v, Next = Ret v /\ ret_after x s = false) -> (uses x s = false -> kept m m1) -> kept m m1).
    { intros s m m1 _ [U|(v & K & _)] G; [auto|discriminate]. }
    apply run_both.
    - intros y e m v _ A _. split; [reflexivity|split; [reflexivity|exact A]].
    - intros y z e m b i B v _ _ A _. split; [reflexivity|split; [reflexivity|exact A]].
    - intros z e v m b i B w (k & j & Ep & Eh & _) _ A U. apply (One _ _ _ A U). simpl. intros U1.
      assert (Nb : b <> id) by (intros ->; exact (A z k (not_x _ U1) Ep)).
      split; [reflexivity|split; [|exact A]]. simpl. apply updh_other. exact Nb.
    - intros y z e m b k j Ep _ A U. apply (One _ _ _ A U). simpl. intros U1. apply orb_false_elim in U1 as [U1 U2].
      split; [simpl; apply upd_other; exact (not_x _ U1)|split; [reflexivity|]].
      intros w i Nw. simpl. unfold upd. destruct (String.eqb y w); [|apply A; exact Nw].
      intros E. injection E as -> _. exact (A z k (not_x _ U2) Ep).
    - intros z k n m w _ _ A U. apply (One _ _ _ A U). simpl. intros U1. pose proof (not_x _ U1) as Nz.
      assert (Ni : (z, cnt m z) <> id) by (intros E; apply Nz; rewrite <- Hx, <- E; reflexivity).
      split; [simpl; apply upd_other; exact Nz|split; [simpl; apply updh_other; exact Ni|]].
      intros y i Ny. simpl. unfold upd. destruct (String.eqb z y); [|apply A; exact Ny]. intros E. injection E as E _. contradiction.
    - intros z m m1 Q A U. apply (One _ _ _ A U). simpl. intros U1. destruct Q as [b nn f Ep Eh].
      assert (Nb : b <> id) by (intros ->; exact (A z 0 (not_x _ U1) Ep)).
      split; [reflexivity|split; [|exact A]]. simpl. apply updh_other. exact Nb.
    - intros c p q m b o m1 _ _ IH A U. apply IH; [exact A|]. destruct U as [U|(v & -> & U)]; [left|right; exists v; split; [reflexivity|]].
      + simpl in U. apply orb_false_elim in U as [U1 U2]. destruct b; assumption.
      + rewrite DecI in U. apply orb_false_elim in U as [U1 U2]. destruct b; assumption.
    - intros c p m _ A _. apply Refl. exact A.
    - intros c p m m1 o m2 _ Rp IH1 Rw IH2 A U.
      assert (U1 : existsb (uses x) p = false).
      { destruct U as [U|(v & -> & U)]; [exact U|]. simpl in U. pose proof (proj1 run_has_ret _ _ _ _ Rw v eq_refl) as K. simpl in K. rewrite K, andb_true_r in U. exact U. }
      assert (K1 : kept m m1) by (apply IH1; auto). apply (kept_trans _ _ _ K1). apply IH2; [apply K1|left; exact U1].
    - intros c p m v m1 _ Rp IH A U.
      assert (U1 : existsb (uses x) p = false).
      { destruct U as [U|(w & _ & U)]; [exact U|]. simpl in U. pose proof (proj2 run_has_ret _ _ _ _ Rp v eq_refl) as K. rewrite K, andb_true_r in U. exact U. }
      apply IH; auto.
    - intros m A _. apply Refl. exact A.
    - intros e m v _ A _. apply Refl. exact A.
    - intros m A _. apply Refl. exact A.
    - intros a p m m1 o m2 Ra IH1 Rp IH2 A U.
      assert (U1 : uses x a = false /\ (existsb (uses x) p = false \/ (exists v, o = Ret v /\ rets_after x p = false))).
      { destruct U as [U|(v & -> & U)]; simpl in U.
        - apply orb_false_elim in U as [U1 U2]. auto.
        - apply orb_false_elim in U as [U U3]. apply orb_false_elim in U as [_ U2].
          pose proof (proj2 run_has_ret _ _ _ _ Rp v eq_refl) as K. rewrite K, andb_true_r in U2. split; [exact U2|right; exists v; auto]. }
      destruct U1 as [U1 U2]. assert (K1 : kept m m1) by (apply IH1; auto). apply (kept_trans _ _ _ K1). apply IH2; [apply K1|exact U2].
    - intros a p m v m1 _ IH A U. apply IH; [exact A|]. destruct U as [U|(w & E & U)]; simpl in U.
      + apply orb_false_elim in U as [U1 U2]. left. exact U1.
      + right. exists v. split; [reflexivity|]. apply orb_false_elim in U as [U _]. apply orb_false_elim in U as [U _]. exact U.
  Qed.
  Lemma entry_kept l : ~ In x (map fst l) -> forall m m1, entry l m m1 -> apart x id m -> kept m m1.
  Proof.
    induction l as [|[y t] l IH]; intros N m m1 E A; inversion E as [|? ? ? ? ? S E1|? ? ? ? n z ? S Sz Ez Hz E1]; subst.
    - repeat split; auto.
    - apply IH; auto. intros K. apply N. right. exact K.
    - assert (Ny : y <> x) by (intros K; apply N; left; exact K).
      apply kept_trans with (alloc m y (st_kind t) z); [|apply IH; auto; [intros K; apply N; right; exact K|]];
        assert (Ni : (y, cnt m y) <> id) by (intros K; apply Ny; rewrite <- Hx, <- K; reflexivity);
        assert (Ap : apart x id (alloc m y (st_kind t) z)) by
          (intros w i Nw; simpl; unfold upd; destruct (String.eqb y w); [intros K; injection K as K _; contradiction|apply A; exact Nw]); [|exact Ap].
      split; [simpl; apply upd_other; exact Ny|split; [simpl; apply updh_other; exact Ni|exact Ap]].
  Qed.
  Lemma exits_kept l : ~ In x (map fst l) -> forall m m1, exits l m m1 -> apart x id m -> kept m m1.
  Proof.
    induction l as [|[y t] l IH]; intros N m m1 E A; inversion E as [|? ? ? ? ? S E1|? ? ? ? m3 ? S1 S2 Q E1]; subst.
    - repeat split; auto.
    - apply IH; auto. intros K. apply N. right. exact K.
    - assert (Ny : y <> x) by (intros K; apply N; left; exact K).
      assert (K3 : kept m m3).
      { destruct Q as [b nn f Ep Eh]. assert (Nb : b <> id) by (intros ->; exact (A y 0 Ny Ep)).
        split; [reflexivity|split; [|exact A]]. simpl. apply updh_other. exact Nb. }
      apply (kept_trans _ _ _ K3). apply IH; auto; [intros K; apply N; right; exact K|apply K3].
  Qed.
End Untouched.

Definition without (id : ident) (m m' : machine) : Prop :=
  data m' = data m /\ ptr m' = ptr m /\ cnt m' = cnt m /\ (forall b, b <> id -> heap m' b = heap m b) /\ heap m' id = None.
Lemma exits_without x id l : ~ In x (map fst l) -> forall m m1 m', exits l m m1 -> apart x id m -> without id m m' ->
  exists m1', exits l m' m1' /\ without id m1 m1'.
Proof.
  induction l as [|[y t] l IH]; intros N m m1 m' E A W; inversion E as [|? ? ? ? ? S E1|? ? ? ? m3 ? S1 S2 Q E1]; subst.
  - exists m'. split; [constructor|exact W].
  - destruct (IH (fun K => N (or_intror K)) _ _ _ E1 A W) as (m1' & B & C). exists m1'. split; [apply Q_skip; auto|exact C].
  - assert (Ny : y <> x) by (intros K; apply N; left; exact K).
    destruct Q as [b nn f Ep Eh]. assert (Nb : b <> id) by (intros ->; exact (A y 0 Ny Ep)).
    destruct W as (W1 & W2 & W3 & W4 & W5).
    destruct (IH (fun K => N (or_intror K)) _ _ (set_heap m' b None) E1 A) as (m1' & B & C).
    { split; [exact W1|]. split; [exact W2|]. split; [exact W3|]. split; simpl.
      - intros c Nc. unfold updh. destruct (ideqb b c); [reflexivity|apply W4; exact Nc].
      - rewrite updh_other; auto. }
    exists m1'. split; [|exact C]. eapply Q_free; [exact S1|exact S2| |exact B]. apply Released with nn f; [rewrite W2; exact Ep|rewrite W4; auto].
Qed.

Section FreeSim.
  Variables (F : func) (pre post : list stm) (x : string) (t : storage).
  Hypothesis Hroot : f_root F = pre ++ SFree x :: post.
  Hypothesis Hcan : can_free pre (SFree x) post = true.
  Hypothesis Hnd : NoDup (map fst (f_types F)).
  Hypothesis Hty : In (x, t) (f_types F).
  Hypothesis Huf : st_free t = false.
  Hypothesis Hkind : st_alloc t = true -> st_kind t = Heap.
  Hypothesis Hret : existsb has_ret pre = true -> st_alloc t = true.
  Let F2 := apply_free F pre (SFree x) post.

  Theorem free_sim m o mf : aged m -> call F m o mf ->
    exists mf', call F2 m o mf' /\ data mf' = data mf /\
      (forall b, b <> (x, cnt m x) -> heap mf' b = heap mf b) /\
      ((heap mf' (x, cnt m x) = heap mf (x, cnt m x) /\ exists m1 m2, entry (f_types F) m m1 /\ runs pre m1 Next m2) \/
       (heap mf' (x, cnt m x) = None /\ exists v m1 m2, entry (f_types F) m m1 /\ runs pre m1 (Ret v) m2)).
  Proof.
    intros G C. destruct C as [m1 m2 m3 En Ru Ex]. pose (id := (x, cnt m x)). fold id.
    unfold can_free in Hcan. apply andb_true_iff in Hcan as [Up Rp0]. apply negb_true_iff in Up, Rp0.
    destruct (types_split _ _ _ Hnd Hty) as (l1 & l2 & El & N1 & N2).
    assert (E1 : f_types F2 = l1 ++ (x, Sto Heap (st_size t) (st_alloc t) true) :: l2).
    { unfold F2, apply_free. cbn [f_types]. rewrite El. rewrite set_type_split; auto. }
    assert (E2 : f_root F2 = pre ++ post) by reflexivity.
    pose proof En as En0.
    assert (En' : entry (f_types F2) m m1).
    { rewrite El in En. rewrite E1. apply entry_app in En as (ma & Ea & Eb). apply entry_app. exists ma. split; [exact Ea|].
      inversion Eb as [|? ? ? ? ? S R|? ? ? ? n z ? S Sz Ez Hz R]; subst; [apply E_skip; assumption|].
      eapply E_alloc; eauto. simpl. rewrite <- (Hkind S). exact R. }
    pose proof (aged_entry _ _ _ En0 G) as G1.
    rewrite El in Ex. apply exits_app in Ex as (mc & Ec & Ed).
    assert (Ed' : exits l2 mc m3) by (inversion Ed; subst; [assumption|congruence]). clear Ed.
    assert (Off1 : forall y, only x y -> ~ In y (map fst l1)) by (intros y <-; exact N1).
    rewrite Hroot in Ru. apply runs_app in Ru as [(ma & Ra & Rb)|(v & -> & Ra)].
    - inversion Rb as [|? ? ? mb ? ? Rm Rr|? ? ? w ? Rm]; subst; [|inversion Rm]. inversion Rm as [| | | | |? ? ? Q| | | | | |]; subst.
      pose proof (proj2 aged_run _ _ _ _ Ra G1) as Ga. destruct Q as [b nn f Ep Eh].
      assert (R0 : rel (only x) (only b) (set_heap ma b None) ma).
      { constructor; simpl; auto.
        - intros c Nc. apply updh_other. exact Nc.
        - intros c <-. apply updh_same.
        - intros c <-. exact (proj1 Ga _ _ Eh). }
      assert (Qp : quiets (only x) post) by (intros y <-; exact Up).
      destruct (runs_rel _ _ _ _ _ _ _ Rr Qp R0) as (m2' & Rr' & R1 & H1).
      destruct (exits_rel _ _ _ Off1 _ _ _ Ec R1) as (mc' & Ec' & R2 & H2).
      destruct (proj2 (run_frame x) _ _ _ _ Rr' Up) as [Kp _]. destruct (exits_ptr _ _ _ Ec') as (_ & Kq & _).
      destruct (proj2 (run_frame x) _ _ _ _ Rr Up) as [Jp Jc]. destruct (exits_ptr _ _ _ Ec) as (_ & Jq & Jr). simpl in Jp, Jc.
      destruct (proj2 (run_frame x) _ _ _ _ Rr' Up) as [_ Kc]. destruct (exits_ptr _ _ _ Ec') as (_ & _ & Kr).
      assert (R3 : rel none none mc (set_heap mc' b None)).
      { constructor; simpl.
        - exact (rl_data _ _ _ _ R2).
        - intros y _. destruct (String.eqb_spec x y) as [<-|Ny]; [|apply (rl_ptr _ _ _ _ R2); exact Ny]. rewrite Jq, Kq, Jp, Kp. reflexivity.
        - intros y _. destruct (String.eqb_spec x y) as [<-|Ny]; [|apply (rl_cnt _ _ _ _ R2); exact Ny]. rewrite Jr, Kr, Jc, Kc. reflexivity.
        - intros c _. unfold updh. destruct (ideqb b c) eqn:Q.
          + apply ideqb_eq in Q. subst c. apply (rl_none _ _ _ _ R2). reflexivity.
          + apply (rl_heap _ _ _ _ R2). intros K. unfold only in K. subst c. rewrite ideqb_refl in Q. discriminate.
        - intros c [].
        - intros c []. }
      destruct (exits_rel none none l2 (fun y F => match F with end) _ _ _ Ed' R3) as (m3' & Ed1 & R4 & _).
      exists (drop_stack m3'). split; [|split; [|split]].
      + apply Call with m1 m2'; [exact En'| |].
        * rewrite E2. apply runs_app. left. exists ma. split; [exact Ra|exact Rr'].
        * rewrite E1. apply exits_app. exists mc'. split; [exact Ec'|]. eapply Q_free; [reflexivity|reflexivity| |exact Ed1].
          apply Released with nn f; [rewrite Kq, Kp; exact Ep|]. rewrite (H2 b eq_refl), (H1 b eq_refl). exact Eh.
      + simpl. symmetry. exact (rl_data _ _ _ _ R4).
      + intros c _. symmetry. apply rel_drop. exact R4.
      + left. split; [symmetry; apply rel_drop; exact R4|]. exists m1, ma. split; [exact En0|exact Ra].
    - pose proof (proj2 run_has_ret _ _ _ _ Ra v eq_refl) as Hr. pose proof (Hret Hr) as Sa. pose proof (Hkind Sa) as Sk.
      pose proof En0 as En1. rewrite El in En1. apply entry_app in En1 as (me & Ea & Eb).
      inversion Eb as [|? ? ? ? ? S R|? ? ? ? n z ? S Sz Ez Hz R]; subst; [congruence|].
      destruct (entry_frame _ _ N1 _ _ Ea) as [_ Kcnt]. pose proof (aged_entry _ _ _ Ea G) as Gm.
      assert (Hid : (x, cnt me x) = id) by (unfold id; rewrite Kcnt; reflexivity).
      assert (Ap0 : apart x id (alloc me x (st_kind t) z)).
      { intros y i Ny. simpl. rewrite upd_other by auto. intros K. apply (proj2 Gm) in K. rewrite <- Hid in K. simpl in K. lia. }
      pose proof (entry_kept x id eq_refl l2 N2 _ _ R Ap0) as K1.
      assert (K2 : kept x id m1 m2).
      { apply (proj2 (run_kept x id eq_refl) _ _ _ _ Ra); [apply K1|]. right. exists v. auto. }
      assert (K3 : kept x id m2 mc) by (apply (exits_kept x id l1 N1 _ _ Ec); apply K2).
      pose proof (kept_trans _ _ _ _ _ (kept_trans _ _ _ _ _ K1 K2) K3) as (P1 & P2 & P3).
      simpl in P1, P2. rewrite upd_same in P1. rewrite Hid in P1, P2. rewrite updh_same in P2. rewrite Sk in P2.
      destruct (exits_without x id l2 N2 _ _ (set_heap mc id None) Ed' P3) as (m3' & Ed1 & W1 & W2 & W3 & W4 & W5).
      { split; [reflexivity|]. split; [reflexivity|]. split; [reflexivity|]. split; simpl; [intros c Nc; apply updh_other; auto|apply updh_same]. }
      exists (drop_stack m3'). split; [|split; [|split]].
      + apply Call with m1 m2; [exact En'| |].
        * rewrite E2. apply runs_app. right. exists v. split; [reflexivity|exact Ra].
        * rewrite E1. apply exits_app. exists mc. split; [exact Ec|]. eapply Q_free; [reflexivity|reflexivity| |exact Ed1].
          eapply Released; [exact P1|exact P2].
      + exact W1.
      + intros c Nc. simpl. rewrite W4; auto.
      + right. split; [simpl; rewrite W5; reflexivity|]. exists v, m1, m2. split; [exact En0|exact Ra].
  Qed.
End FreeSim.
