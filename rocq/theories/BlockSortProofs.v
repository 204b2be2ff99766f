(** Proofs about BlockSort.v: what the accesses of a block touch, and exchanging two
    blocks. *)
From Verif Require Import Sym SymFacts Alloc AllocProofs AllocSim BlockSort.

(** The machines agree on the containers in [N] and the buffers in [S]. *)
Record agree (N : string -> Prop) (S : ident -> Prop) (m m' : machine) : Prop := {
  ag_data : forall x, N x -> data m x = data m' x;
  ag_ptr : forall x, N x -> ptr m x = ptr m' x;
  ag_cnt : forall x, N x -> cnt m x = cnt m' x;
  ag_heap : forall b, S b -> heap m b = heap m' b }.
Definition any {A} : A -> Prop := fun _ => True.
Definition meq : machine -> machine -> Prop := agree any any.
Lemma agree_refl N S m : agree N S m m. Proof. constructor; reflexivity. Qed.
Lemma agree_sym N S m m' : agree N S m m' -> agree N S m' m.
Proof. intros [a b c d]. constructor; intros; symmetry; auto. Qed.
Lemma agree_trans N S m m1 m2 : agree N S m m1 -> agree N S m1 m2 -> agree N S m m2.
Proof. intros [a b c d] [a2 b2 c2 d2]. constructor; intros; [rewrite a|rewrite b|rewrite c|rewrite d]; auto. Qed.
Lemma agree_mono (N N' : string -> Prop) (S S' : ident -> Prop) m m' : (forall x, N' x -> N x) -> (forall b, S' b -> S b) -> agree N S m m' -> agree N' S' m m'.
Proof. intros A B [a b c d]. constructor; auto. Qed.

(** The live buffers [N]'s containers point to, and the ones they may be given, are in [S]. *)
Definition covers (N : string -> Prop) (S : ident -> Prop) (m : machine) : Prop :=
  (forall x b i, N x -> ptr m x = Some (b, i) -> heap m b <> None -> S b) /\ (forall x k, N x -> (cnt m x <= k)%nat -> S (x, k)).

Section Local.
  Variables (N : string -> Prop) (S : ident -> Prop).
  Definition inside (l : list string) : Prop := forall x, In x l -> N x.
  Lemma ev_in m m' e : agree N S m m' -> inside (atoms e) -> eval (data m') e = eval (data m) e.
  Proof.
    intros A I. unfold eval. rewrite (ev_agree (data m') (data m) e); [reflexivity|]. intros x Hx. symmetry. apply (ag_data _ _ _ _ A), I, Hx.
  Qed.
  Lemma agree_data m m' y v : agree N S m m' -> agree N S (set_data m y v) (set_data m' y v).
  Proof. intros [a b c d]. constructor; simpl; auto. intros x Hx. unfold Alloc.upd. destruct (String.eqb y x); auto. Qed.
  Lemma agree_ptr m m' y v : agree N S m m' -> agree N S (set_ptr m y v) (set_ptr m' y v).
  Proof. intros [a b c d]. constructor; simpl; auto. intros x Hx. unfold Alloc.upd. destruct (String.eqb y x); auto. Qed.
  Lemma agree_setheap m m' h B : agree N S m m' -> agree N S (set_heap m h B) (set_heap m' h B).
  Proof. intros [a b c d]. constructor; simpl; auto. intros x Hx. unfold updh. destruct (ideqb h x); auto. Qed.
  Lemma agree_alloc m m' x k z : N x -> agree N S m m' -> agree N S (alloc m x k z) (alloc m' x k z).
  Proof.
    intros Nx [a b c d]. constructor; simpl; auto; rewrite <- ?(c x Nx).
    - intros y Hy. unfold Alloc.upd. destruct (String.eqb x y); auto.
    - intros y Hy. unfold Alloc.upd. destruct (String.eqb x y); auto.
    - intros y Hy. unfold updh. destruct (ideqb _ y); auto.
  Qed.
  (** Changing a container of [N] or a buffer of [S] leaves the others. *)
  Notation off := (agree (fun x => ~ N x) (fun b => ~ S b)).
  Lemma off_data m y v : N y -> off m (set_data m y v).
  Proof. intros Ny. constructor; simpl; auto. intros x Hx. rewrite AllocProofs.upd_other; [reflexivity|]. intros ->. contradiction. Qed.
  Lemma off_ptr m y v : N y -> off m (set_ptr m y v).
  Proof. intros Ny. constructor; simpl; auto. intros x Hx. rewrite AllocProofs.upd_other; [reflexivity|]. intros ->. contradiction. Qed.
  Lemma off_heap m b v : S b -> off m (set_heap m b v).
  Proof. intros Ny. constructor; simpl; auto. intros x Hx. rewrite updh_other; [reflexivity|]. intros ->. contradiction. Qed.
  Lemma off_alloc m x k z : N x -> S (x, cnt m x) -> off m (alloc m x k z).
  Proof.
    intros Nx Sx. constructor; simpl; auto.
    - intros y Hy. rewrite AllocProofs.upd_other; [reflexivity|]. intros ->. contradiction.
    - intros y Hy. rewrite AllocProofs.upd_other; [reflexivity|]. intros ->. contradiction.
    - intros b Hb. rewrite updh_other; [reflexivity|]. intros E; subst b; contradiction.
  Qed.

  Lemma at_local m m' x e b i B : covers N S m -> agree N S m m' -> N x -> inside (atoms e) -> at_cell m x e b i B -> S b /\ at_cell m' x e b i B.
  Proof.
    intros [C _] A Nx Ie (k & j & Ep & Eh & Ee & Ei & Hi). assert (Sb : S b) by (apply (C x b k Nx Ep); rewrite Eh; discriminate).
    split; [exact Sb|]. exists k, j. rewrite <- (ag_ptr _ _ _ _ A x Nx), <- (ag_heap _ _ _ _ A b Sb), (ev_in _ _ e A Ie). auto.
  Qed.
  Ltac sub := let z := fresh in let Hz := fresh in intros z Hz; match goal with I : inside _ |- _ => apply I; simpl; rewrite ?in_app_iff; solve [auto] end.
  Theorem step_local a m m1 m' : step a m m1 -> inside (names1 a) -> covers N S m -> agree N S m m' ->
    off m m1 /\ covers N S m1 /\ exists m1', step a m' m1' /\ agree N S m1 m1' /\ off m' m1'.
  Proof.
    intros R I C A. pose proof C as [C1 C2]. destruct R as [y e m v Ev|y x e m b i B v Ha Ec|x e v m b i B z Ha Ev|y x e m b k j Ep Ej|x k n m z Ez Hz|x m m1 Q|x v n m b k B z j Ep Eh Ev Ej Hk Hj Hs].
    - assert (Ny : N y) by (apply I; simpl; auto). assert (Ie : inside (atoms e)) by sub.
      split; [apply off_data, Ny|]. split; [exact C|]. exists (set_data m' y v).
      split; [constructor; rewrite (ev_in _ _ e A Ie); exact Ev|]. split; [apply agree_data, A|apply off_data, Ny].
    - assert (Ny : N y) by (apply I; simpl; auto). assert (Nx : N x) by (apply I; simpl; auto). assert (Ie : inside (atoms e)) by sub.
      destruct (at_local _ _ _ _ _ _ _ C A Nx Ie Ha) as [_ Ha'].
      split; [apply off_data, Ny|]. split; [exact C|]. exists (set_data m' y v).
      split; [eapply P_load; eassumption|]. split; [apply agree_data, A|apply off_data, Ny].
    - assert (Nx : N x) by (apply I; simpl; auto). assert (Ie : inside (atoms e)) by sub. assert (Iv : inside (atoms v)) by sub.
      destruct (at_local _ _ _ _ _ _ _ C A Nx Ie Ha) as [Sb Ha'].
      split; [apply off_heap, Sb|]. split.
      { split; [|exact C2]. intros w c l Nw Ew. simpl. unfold updh. destruct (ideqb b c) eqn:E; [apply ideqb_eq in E; subst c; intros _; exact Sb|apply (C1 w c l Nw Ew)]. }
      eexists. split; [eapply P_store; [exact Ha'|rewrite (ev_in _ _ v A Iv); exact Ev]|]. split; [apply agree_setheap, A|apply off_heap, Sb].
    - assert (Ny : N y) by (apply I; simpl; auto). assert (Nx : N x) by (apply I; simpl; auto). assert (Ie : inside (atoms e)) by sub.
      split; [apply off_ptr, Ny|]. split.
      { split; [|exact C2]. intros w c l Nw. simpl. unfold Alloc.upd. destruct (String.eqb y w) eqn:E; [|apply (C1 w c l Nw)].
        intros Ew. injection Ew as <- <-. exact (C1 x b k Nx Ep). }
      eexists. split; [eapply P_view; [rewrite <- (ag_ptr _ _ _ _ A x Nx); exact Ep|rewrite (ev_in _ _ e A Ie); exact Ej]|].
      split; [apply agree_ptr, A|apply off_ptr, Ny].
    - assert (Nx : N x) by (apply I; simpl; auto). assert (Ie : inside (atoms n)) by sub.
      assert (Sx : S (x, cnt m x)) by (apply C2; [exact Nx|lia]).
      split; [apply off_alloc; assumption|]. split.
      { split; simpl.
        - intros w c l Nw. unfold Alloc.upd, updh. destruct (String.eqb x w) eqn:E.
          + intros Ew _. injection Ew as <- <-. exact Sx.
          + intros Ew. destruct (ideqb (x, cnt m x) c) eqn:E2; [apply ideqb_eq in E2; subst c; intros _; exact Sx|apply (C1 w c l Nw Ew)].
        - intros w l Nw. unfold Alloc.upd. destruct (String.eqb_spec x w) as [<-|E]; intros Hl; apply C2; auto; lia. }
      exists (alloc m' x k z). split; [constructor; [rewrite (ev_in _ _ n A Ie); exact Ez|exact Hz]|].
      split; [apply agree_alloc; assumption|]. apply off_alloc; [exact Nx|]. rewrite <- (ag_cnt _ _ _ _ A x Nx). exact Sx.
    - assert (Nx : N x) by (apply I; simpl; auto). destruct Q as [b n f Ep Eh].
      assert (Sb : S b) by (apply (C1 x b 0 Nx Ep); rewrite Eh; discriminate).
      split; [apply off_heap, Sb|]. split.
      { split; [|exact C2]. intros w c l Nw Ew. simpl. unfold updh. destruct (ideqb b c) eqn:E; [apply ideqb_eq in E; subst c; intros _; exact Sb|apply (C1 w c l Nw Ew)]. }
      exists (set_heap m' b None). split.
      { constructor. apply Released with n f; [rewrite <- (ag_ptr _ _ _ _ A x Nx); exact Ep|rewrite <- (ag_heap _ _ _ _ A b Sb); exact Eh]. }
      split; [apply agree_setheap, A|apply off_heap, Sb].
    - assert (Nx : N x) by (apply I; simpl; auto). assert (In_ : inside (atoms n)) by sub. assert (Iv : inside (atoms v)) by sub.
      assert (Sb : S b) by (apply (C1 x b k Nx Ep); rewrite Eh; discriminate).
      split; [apply off_heap, Sb|]. split.
      { split; [|exact C2]. intros w c l Nw Ew. simpl. unfold updh. destruct (ideqb b c) eqn:E; [apply ideqb_eq in E; subst c; intros _; exact Sb|apply (C1 w c l Nw Ew)]. }
      eexists. split.
      { eapply P_fill with (j := j); [rewrite <- (ag_ptr _ _ _ _ A x Nx); exact Ep|rewrite <- (ag_heap _ _ _ _ A b Sb); exact Eh
          |rewrite (ev_in _ _ v A Iv); exact Ev|rewrite (ev_in _ _ n A In_); exact Ej|exact Hk|exact Hj|exact Hs]. }
      split; [apply agree_setheap, A|apply off_heap, Sb].
  Qed.
  Theorem steps_local l : forall m m1 m', steps l m m1 -> inside (names l) -> covers N S m -> agree N S m m' ->
    off m m1 /\ covers N S m1 /\ exists m1', steps l m' m1' /\ agree N S m1 m1' /\ off m' m1'.
  Proof.
    induction l as [|a l IH]; intros m m2 m' R I C A; inversion R as [|a0 l0 m0 m1 m3 R1 R2]; subst.
    - split; [apply agree_refl|]. split; [exact C|]. exists m'. split; [constructor|]. split; [exact A|apply agree_refl].
    - assert (I1 : inside (names1 a)) by (intros x Hx; apply I; simpl; apply in_app_iff; auto).
      assert (I2 : inside (names l)) by (intros x Hx; apply I; simpl; apply in_app_iff; auto).
      destruct (step_local _ _ _ _ R1 I1 C A) as (F1 & C1 & m1' & S1 & A1 & G1).
      destruct (IH _ _ _ R2 I2 C1 A1) as (F2 & C2 & m2' & S2 & A2 & G2).
      split; [eapply agree_trans; eassumption|]. split; [exact C2|]. exists m2'. split; [econstructor; eassumption|].
      split; [exact A2|eapply agree_trans; eassumption].
  Qed.
End Local.

(** Executions from machines that agree everywhere. *)
Lemma covers_any m : covers any any m. Proof. split; intros; exact I. Qed.
Lemma steps_meq l m m1 m' : steps l m m1 -> meq m m' -> exists m1', steps l m' m1' /\ meq m1 m1'.
Proof.
  intros R A. destruct (steps_local any any l m m1 m' R (fun _ _ => I) (covers_any m) A) as (_ & _ & m1' & B & C & _). eauto.
Qed.
Lemma cev_meq m m' c : meq m m' -> cev (data m') c = cev (data m) c.
Proof. intros A. apply cev_agree. intros x _. symmetry. apply (ag_data _ _ _ _ A x I). Qed.
Scheme exec_mind := Minimality for exec Sort Prop
  with execs_mind := Minimality for execs Sort Prop
  with iter_mind := Minimality for iter Sort Prop.
Combined Scheme exec_all from exec_mind, execs_mind, iter_mind.
Definition keeps (R : machine -> out -> machine -> Prop) (m : machine) (o : out) (m1 : machine) : Prop :=
  forall m', meq m m' -> exists m1', R m' o m1' /\ meq m1 m1'.
Theorem exec_meq :
  (forall n m o m1, exec n m o m1 -> keeps (exec n) m o m1) /\
  (forall p m o m1, execs p m o m1 -> keeps (execs p) m o m1) /\
  (forall c u p m o m1, iter c u p m o m1 -> keeps (iter c u p) m o m1).
Proof.
  apply exec_all.
  - intros l m m1 R m' A. destruct (steps_meq _ _ _ _ R A) as (m1' & B & C). exists m1'. split; [constructor; exact B|exact C].
  - intros p m o m1 _ IH m' A. destruct (IH m' A) as (m1' & B & C). exists m1'. split; [constructor; exact B|exact C].
  - intros c p q m t o m1 Ec _ IH m' A. destruct (IH m' A) as (m1' & B & C). exists m1'. split; [|exact C]. apply X_if with t; [rewrite (cev_meq _ _ c A); exact Ec|exact B].
  - intros i c u p m m1 o m2 R _ IH m' A. destruct (steps_meq _ _ _ _ R A) as (m1' & B & C). destruct (IH _ C) as (m2' & D & E).
    exists m2'. split; [econstructor; eassumption|exact E].
  - intros m m' A. exists m'. split; [constructor|exact A].
  - intros m m' A. exists m'. split; [constructor|exact A].
  - intros m m' A. exists m'. split; [constructor|exact A].
  - intros m m' A. exists m'. split; [constructor|exact A].
  - intros n tr p m m1 m2 o m3 _ IH1 R _ IH2 m' A. destruct (IH1 _ A) as (m1' & B1 & C1). destruct (steps_meq _ _ _ _ R C1) as (m2' & B2 & C2).
    destruct (IH2 _ C2) as (m3' & B3 & C3). exists m3'. split; [econstructor; eassumption|exact C3].
  - intros n tr p m o m1 _ IH Ho m' A. destruct (IH _ A) as (m1' & B & C). exists m1'. split; [apply X_exit; assumption|exact C].
  - intros c u p m Ec m' A. exists m'. split; [apply T_stop; rewrite (cev_meq _ _ c A); exact Ec|exact A].
  - intros c u p m o1 m1 m2 o m3 Ec _ IH1 Ho R _ IH2 m' A. destruct (IH1 _ A) as (m1' & B1 & C1). destruct (steps_meq _ _ _ _ R C1) as (m2' & B2 & C2).
    destruct (IH2 _ C2) as (m3' & B3 & C3). exists m3'. split; [|exact C3]. eapply T_again; [rewrite (cev_meq _ _ c A); exact Ec|exact B1|exact Ho|exact B2|exact B3].
  - intros c u p m m1 Ec _ IH m' A. destruct (IH _ A) as (m1' & B & C). exists m1'. split; [|exact C]. apply T_break; [rewrite (cev_meq _ _ c A); exact Ec|exact B].
  - intros c u p m m1 Ec _ IH m' A. destruct (IH _ A) as (m1' & B & C). exists m1'. split; [|exact C]. apply T_return; [rewrite (cev_meq _ _ c A); exact Ec|exact B].
Qed.

(** The state the exchanges rely on: buffers are older than the next allocation, and
    containers of different classes do not point to the same buffer. *)
Definition apart_ (cls : string -> string) (m : machine) : Prop :=
  forall x y b i j, ptr m x = Some (b, i) -> ptr m y = Some (b, j) -> cls x = cls y.
Definition good (cls : string -> string) (m : machine) : Prop := aged m /\ apart_ cls m.
Definition views (cls : string -> string) (l : list ins) : Prop := forall y x e, In (View y x e) l -> cls y = cls x.
Lemma aged_heap m b B B' : aged m -> heap m b = Some B -> aged (set_heap m b B').
Proof.
  intros [A P] E. split; simpl; [|exact P]. intros c C. unfold updh. destruct (ideqb b c) eqn:F; [apply ideqb_eq in F; subst c; intros _; exact (A _ _ E)|apply A].
Qed.
Lemma step_good cls a m m1 : step a m m1 -> (forall y x e, a = View y x e -> cls y = cls x) -> good cls m -> good cls m1.
Proof.
  intros R V [G P]. destruct R as [y e m v Ev|y x e m b i B v Ha Ec|x e v m b i B z Ha Ev|y x e m b k j Ep Ej|x k n m z Ez Hz|x m m1 Q|x v n m b k B z j Ep Eh Ev Ej Hk Hj Hs].
  - split; [exact G|exact P].
  - split; [exact G|exact P].
  - split; [|exact P]. destruct Ha as (k & j & _ & Eh & _). exact (aged_heap _ _ _ _ G Eh).
  - specialize (V y x e eq_refl). split.
    + destruct G as [A D]. split; [exact A|]. intros w c l. simpl. unfold Alloc.upd. destruct (String.eqb y w); [|apply D].
      intros E. injection E as <- <-. exact (D _ _ _ Ep).
    + intros w w2 c l l2. simpl. unfold Alloc.upd. destruct (String.eqb_spec y w) as [<-|E]; destruct (String.eqb_spec y w2) as [<-|E2]; intros F F2.
      * reflexivity.
      * injection F as <- <-. rewrite V. exact (P x w2 b k l2 Ep F2).
      * injection F2 as <- <-. rewrite V. exact (P w x b l k F Ep).
      * exact (P w w2 c l l2 F F2).
  - split; [apply aged_alloc, G|]. intros w w2 c l l2. simpl. destruct G as [_ D]. unfold Alloc.upd. destruct (String.eqb_spec x w) as [<-|E]; destruct (String.eqb_spec x w2) as [<-|E2]; intros F F2.
    + reflexivity.
    + injection F as <- <-. apply D in F2. simpl in F2. lia.
    + injection F2 as <- <-. apply D in F. simpl in F. lia.
    + exact (P w w2 c l l2 F F2).
  - destruct Q as [b n f Ep Eh]. split; [exact (aged_heap _ _ _ _ G Eh)|exact P].
  - split; [exact (aged_heap _ _ _ _ G Eh)|exact P].
Qed.
Lemma steps_good cls l : forall m m1, steps l m m1 -> views cls l -> good cls m -> good cls m1.
Proof.
  induction l as [|a l IH]; intros m m2 R V G; inversion R as [|a0 l0 m0 m1 m3 R1 R2]; subst; [exact G|].
  apply (IH _ _ R2); [intros y x e H; apply (V y x e); right; exact H|]. apply (step_good _ _ _ _ R1); [|exact G].
  intros y x e ->. apply (V y x e). left. reflexivity.
Qed.

(** Exchanging two blocks. *)
Lemma steps1 a m m1 : steps [a] m m1 <-> step a m m1.
Proof.
  split; [intros R; inversion R as [|a0 l0 m0 m2 m3 R1 R2]; subst; inversion R2; subst; exact R1|intros R; econstructor; [exact R|constructor]].
Qed.
Definition swaps (a b : list ins) (m m2 : machine) : Prop := exists m1' m2', steps b m m1' /\ steps a m1' m2' /\ meq m2 m2'.
Lemma data_off l m m1 e : steps l m m1 -> (forall x, In x (atoms e) -> ~ In x (names l)) -> eval (data m1) e = eval (data m) e.
Proof.
  intros R D. destruct (steps_local (fun x => In x (names l)) any l m m1 m R (fun x H => H)) as (F & _); [split; intros; exact I|apply agree_refl|].
  unfold eval. rewrite (ev_agree (data m1) (data m) e); [reflexivity|]. intros x Hx. symmetry. apply (ag_data _ _ _ _ F), D, Hx.
Qed.
Lemma ptr_off l m m1 x : steps l m m1 -> ~ In x (names l) -> ptr m1 x = ptr m x /\ cnt m1 x = cnt m x.
Proof.
  intros R D. destruct (steps_local (fun x => In x (names l)) any l m m1 m R (fun x H => H)) as (F & _); [split; intros; exact I|apply agree_refl|].
  split; symmetry; [apply (ag_ptr _ _ _ _ F), D|apply (ag_cnt _ _ _ _ F), D].
Qed.
Section Swap.
  Variables (l : list ins) (m m1 m2 : machine).
  Lemma swap_view y x e : steps l m m1 -> step (View y x e) m1 m2 -> (forall z, In z (names1 (View y x e)) -> ~ In z (names l)) -> swaps l [View y x e] m m2.
  Proof.
    intros R V D. inversion V as [| | |y0 x0 e0 m0 b k j Ep Ej| | |]; subst.
    assert (Ny : ~ In y (names l)) by (apply D; simpl; auto). assert (Nx : ~ In x (names l)) by (apply D; simpl; auto).
    destruct (ptr_off _ _ _ x R Nx) as [Px _]. rewrite Px in Ep.
    rewrite (data_off _ _ _ e R) in Ej by (intros z Hz; apply D; simpl; auto).
    assert (A : agree (fun z => z <> y) any m (set_ptr m y (b, k + j))).
    { constructor; simpl; auto. intros z Hz. rewrite AllocProofs.upd_other; auto. }
    destruct (steps_local (fun z => z <> y) any l m m1 (set_ptr m y (b, k + j)) R) as (F & _ & m2' & R2 & A2 & F2);
      [intros z Hz ->; contradiction|split; intros; exact I|exact A|].
    exists (set_ptr m y (b, k + j)), m2'. split; [apply steps1; econstructor; eassumption|]. split; [exact R2|].
    destruct F as [d p c h], A2 as [d2 p2 c2 h2], F2 as [d3 p3 c3 h3]. constructor; simpl.
    - intros z _. destruct (String.eqb_spec z y) as [->|E]; [|apply d2, E]. rewrite <- (d3 y), <- (d y); [reflexivity|tauto|tauto].
    - intros z _. destruct (String.eqb_spec z y) as [->|E]; [rewrite <- (p3 y) by tauto; simpl; rewrite !AllocProofs.upd_same; reflexivity|].
      rewrite AllocProofs.upd_other by auto. apply p2, E.
    - intros z _. destruct (String.eqb_spec z y) as [->|E]; [|apply c2, E]. rewrite <- (c3 y), <- (c y); [reflexivity|tauto|tauto].
    - intros z _. apply h2. exact I.
  Qed.
  Lemma swap_new x k n : aged m -> steps l m m1 -> step (New x k n) m1 m2 -> (forall z, In z (names1 (New x k n)) -> ~ In z (names l)) -> swaps l [New x k n] m m2.
  Proof.
    intros [G G2] R V D. inversion V as [| | | |x0 k0 n0 m0 z Ez Hz| |]; subst.
    assert (Nx : ~ In x (names l)) by (apply D; simpl; auto). destruct (ptr_off _ _ _ x R Nx) as [_ Cx].
    rewrite (data_off _ _ _ n R) in Ez by (intros w Hw; apply D; simpl; auto). set (id := (x, cnt m x)).
    assert (A : agree (fun w => w <> x) (fun b => b <> id) m (alloc m x k z)).
    { constructor; simpl; auto.
      - intros w Hw. rewrite AllocProofs.upd_other; auto.
      - intros w Hw. rewrite AllocProofs.upd_other; auto.
      - intros b Hb. rewrite updh_other; auto. }
    destruct (steps_local (fun w => w <> x) (fun b => b <> id) l m m1 (alloc m x k z) R) as (F & _ & m2' & R2 & A2 & F2).
    - intros w Hw ->. contradiction.
    - split; [intros w b i _ Ew _ ->; apply G2 in Ew; unfold id in Ew; simpl in Ew; lia|]. intros w j Hw _ E. unfold id in E. injection E as E _. contradiction.
    - exact A.
    - exists (alloc m x k z), m2'. split; [apply steps1; econstructor; eassumption|]. split; [exact R2|].
      destruct F as [d p c h], A2 as [d2 p2 c2 h2], F2 as [d3 p3 c3 h3].
      constructor; simpl; rewrite ?Cx; fold id.
      + intros w _. destruct (String.eqb_spec w x) as [->|E]; [|apply d2, E]. rewrite <- (d3 x), <- (d x); [reflexivity|tauto|tauto].
      + intros w _. destruct (String.eqb_spec w x) as [->|E]; [rewrite <- (p3 x) by tauto; simpl; rewrite !AllocProofs.upd_same; reflexivity|].
        rewrite AllocProofs.upd_other by auto. apply p2, E.
      + intros w _. destruct (String.eqb_spec w x) as [->|E]; [rewrite <- (c3 x) by tauto; simpl; rewrite !AllocProofs.upd_same; reflexivity|].
        rewrite AllocProofs.upd_other by auto. apply c2, E.
      + intros b _. destruct (ideqb b id) eqn:E.
        * apply ideqb_eq in E. subst b. rewrite <- (h3 id) by tauto. simpl. fold id. rewrite !updh_same. reflexivity.
        * assert (b <> id) by (intros ->; rewrite ideqb_refl in E; discriminate). rewrite updh_other by auto. apply h2. assumption.
  Qed.
  Lemma swap_fill cls x v n : good cls m -> steps l m m1 -> step (Fill x v n) m1 m2 -> (forall z, In z (names1 (Fill x v n)) -> ~ In z (names l)) ->
    (forall z, In z (names l) -> cls z <> cls x) -> swaps l [Fill x v n] m m2.
  Proof.
    intros [[G G2] P] R V D K. inversion V as [| | | | | |x0 v0 n0 m0 b k B z j Ep Eh Ev Ej Hk Hj Hs]; subst.
    assert (Nx : ~ In x (names l)) by (apply D; simpl; auto). destruct (ptr_off _ _ _ x R Nx) as [Px _]. rewrite Px in Ep.
    rewrite (data_off _ _ _ v R) in Ev by (intros w Hw; apply D; simpl; right; apply in_app_iff; auto).
    rewrite (data_off _ _ _ n R) in Ej by (intros w Hw; apply D; simpl; right; apply in_app_iff; auto).
    assert (C : covers (fun w => In w (names l)) (fun c => c <> b) m).
    { split; [intros w c i Hw Ew _ ->; exact (K w Hw (P _ _ _ _ _ Ew Ep))|]. intros w i Hw Hi <-. apply G2 in Ep. simpl in Ep. lia. }
    destruct (steps_local _ _ l m m1 m R (fun x H => H) C (agree_refl _ _ m)) as (F0 & _).
    assert (Eb : heap m1 b = heap m b) by (symmetry; apply (ag_heap _ _ _ _ F0); tauto). rewrite Eb in Eh.
    set (B' := Some (Buf (b_kind B) (b_size B) (fun i => if (k <=? i) && (i <? k + j) then Some z else b_cells B i))).
    assert (A : agree any (fun c => c <> b) m (set_heap m b B')).
    { constructor; simpl; auto. intros c Hc. rewrite updh_other; auto. }
    destruct (steps_local (fun w => In w (names l)) (fun c => c <> b) l m m1 (set_heap m b B') R (fun x H => H) C) as (_ & _ & m2' & R2 & A2 & F2).
    { eapply agree_mono; [| |exact A]; intros; [exact I|assumption]. }
    exists (set_heap m b B'), m2'. split; [apply steps1; eapply P_fill with (j := j); eassumption|]. split; [exact R2|].
    destruct F0 as [d p c h], A2 as [d2 p2 c2 h2], F2 as [d3 p3 c3 h3]. constructor; simpl.
    - intros w _. destruct (in_dec string_dec w (names l)) as [E|E]; [apply d2, E|]. rewrite <- (d3 w E), <- (d w E). reflexivity.
    - intros w _. destruct (in_dec string_dec w (names l)) as [E|E]; [apply p2, E|]. rewrite <- (p3 w E), <- (p w E). reflexivity.
    - intros w _. destruct (in_dec string_dec w (names l)) as [E|E]; [apply c2, E|]. rewrite <- (c3 w E), <- (c w E). reflexivity.
    - intros c' _. destruct (ideqb c' b) eqn:E.
      + apply ideqb_eq in E. subst c'. rewrite <- (h3 b) by tauto. simpl. rewrite !updh_same. reflexivity.
      + assert (c' <> b) by (intros ->; rewrite ideqb_refl in E; discriminate). rewrite updh_other by auto. apply h2. assumption.
  Qed.
  (** A release moves down over a block that runs after it. *)
  Lemma swap_free x : aged m -> step (Free x) m m1 -> steps l m1 m2 -> ~ In x (names l) -> swaps [Free x] l m m2.
  Proof.
    intros [G G2] V R Nx. inversion V as [| | | | |x0 m0 m3 Q|]; subst. destruct Q as [b n f Ep Eh].
    assert (C : covers any (fun c => c <> b) (set_heap m b None)).
    { split; simpl; [intros w c i _ _ Hl ->; apply Hl; apply updh_same|]. intros w i _ Hi <-. apply G2 in Ep. simpl in Ep. lia. }
    assert (A : agree any (fun c => c <> b) (set_heap m b None) m).
    { constructor; simpl; auto. intros c Hc. rewrite updh_other; auto. }
    destruct (steps_local any (fun c => c <> b) l _ m2 m R (fun _ _ => I) C A) as (F & _ & m1' & R2 & A2 & F2).
    assert (Pb : ptr m1' x = Some (b, 0)) by (destruct (ptr_off _ _ _ x R2 Nx) as [E _]; rewrite E; exact Ep).
    assert (Hb : heap m1' b = Some (Buf Heap n f)) by (rewrite <- (ag_heap _ _ _ _ F2 b) by tauto; exact Eh).
    exists m1', (set_heap m1' b None). split; [exact R2|]. split; [apply steps1; constructor; econstructor; eassumption|].
    destruct A2 as [d p c h]. constructor; simpl; auto.
    intros c' _. destruct (ideqb c' b) eqn:E.
    - apply ideqb_eq in E. subst c'. rewrite updh_same, <- (ag_heap _ _ _ _ F b) by tauto. simpl. apply updh_same.
    - assert (c' <> b) by (intros ->; rewrite ideqb_refl in E; discriminate). rewrite updh_other by auto. apply h. assumption.
  Qed.
End Swap.
