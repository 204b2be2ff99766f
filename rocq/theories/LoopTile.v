(** LoopTiling (sdfg/src/transformations/loop_tiling.cpp). *)
From Verif Require Import Sym SymFacts SymFuns SymProofs1 SymProofs4 Lin IR IRFacts IRRefine PassCFG PassCFGProofs PassInline PassCFGProofs2 CtxD.

(** can_be_applied, lines 18-25, and apply, lines 27-91.  [it]: the name
    returned by builder.find_new_name(indvar + "_tile"); [A]: the assumptions
    at the loop.  The transition assignments of the loop move to the new outer
    loop, i.e. stay on the position of the replaced node. *)
Definition tile_node (T : Z) (A : assumptions) (it : string) (n : node) : option node :=
  match n with
  | NLoop k i init c u body =>
      if T <=? 1 then None
      else if is_contiguous u i A then
        Some (NLoop k it init (csubs c i (ESym it)) (saddn (ESym it) (EInt T))
               (SCons (NLoop k i (ESym it) (sand (slt (ESym i) (saddn (ESym it) (EInt T))) c) (saddn (ESym i) (EInt 1)) body) [] SNil))
      else None
  | _ => None
  end.

(** A break that leaves the construct. *)
Fixpoint nbrk (n : node) : bool :=
  match n with NBreak => true | NSeq s => sbrk s | NIf b => bbrk b | _ => false end
with sbrk (s : seq) : bool := match s with SNil => false | SCons n a r => nbrk n || sbrk r end
with bbrk (b : brs) : bool := match b with BNil => false | BCons c s r => sbrk s || bbrk r end.

(** Once false, the condition stays false for larger values of [i]. *)
Definition down_closed (i : string) (c : cond) : Prop :=
  forall s v v', cev (upd s i v) c = Some false -> v <= v' -> cev (upd s i v') c = Some false.
(** A conjunction of upper bounds on [i]. *)
Fixpoint upper (i : string) (c : cond) : bool :=
  match c with
  | CLt (ESym j) r | CLe (ESym j) r => String.eqb i j && negb (existsb (String.eqb i) (atoms r))
  | CAnd l => forallb (upper i) l
  | _ => false
  end.

Lemma brk_out I :
  (forall n st o st', run I n st o st' -> nbrk n = false -> o <> OBrk) /\
  (forall s st o st', runs I s st o st' -> sbrk s = false -> o <> OBrk) /\
  (forall b st o st', runb I b st o st' -> bbrk b = false -> o <> OBrk) /\
  (forall s st o st', runw I s st o st' -> o <> OBrk) /\
  (forall i c u s st o st', runl I i c u s st o st' -> o <> OBrk).
Proof.
  apply run_mind; simpl; intros; try discriminate; auto;
    repeat match goal with H : _ || _ = false |- _ => apply orb_false_iff in H as [? ?] end; eauto.
Qed.

Lemma ev_upd_fresh s i v e : ~ In i (atoms e) -> ev (upd s i v) e = ev s e.
Proof. intros N. apply ev_agree. intros y Hy. apply upd_other. intros ->. contradiction. Qed.
Lemma not_existsb i l : existsb (String.eqb i) l = false -> ~ In i l.
Proof. rewrite existsb_false_in. intros H Hi. specialize (H _ Hi). rewrite String.eqb_refl in H. discriminate. Qed.

(** Truth of an upper-bound conjunction: defined independently of [i], and
    monotone. *)
Lemma upper_mono i c : upper i c = true -> forall s v v' t, cev (upd s i v) c = Some t -> v <= v' ->
  exists t', cev (upd s i v') c = Some t' /\ (t = false -> t' = false).
Proof.
  induction c using cond_ind'; try discriminate; cbn [upper]; intros U s v v' t E L.
  - destruct a; try discriminate. apply andb_true_iff in U as [U1 U2]. apply String.eqb_eq in U1. subst x.
    apply negb_true_iff in U2; apply not_existsb in U2. cbn [cev ev] in *. rewrite ev_upd_fresh in * by auto. rewrite upd_same in *.
    destruct (ev s b); simpl in *; try discriminate; eexists; split; try reflexivity; injection E as <-; auto.
    intros Q. apply negb_false_iff in Q. apply Z.leb_le in Q. apply negb_false_iff. apply Z.leb_le. lia.
  - destruct a; try discriminate. apply andb_true_iff in U as [U1 U2]. apply String.eqb_eq in U1. subst x.
    apply negb_true_iff in U2; apply not_existsb in U2. cbn [cev ev] in *. rewrite ev_upd_fresh in * by auto. rewrite upd_same in *.
    destruct (ev s b); simpl in *; try discriminate; eexists; split; try reflexivity; injection E as <-; auto.
    intros Q. apply Z.leb_gt in Q. apply Z.leb_gt. lia.
  - cbn [cev] in *. revert t E. induction H as [|c l Hc Hl IH]; cbn [map fold_right] in *; intros t E.
    + exists t; auto.
    + cbn [upper forallb] in U. apply andb_true_iff in U as [U1 U2].
      destruct (cev (upd s i v) c) as [t1|] eqn:E1; [|discriminate].
      destruct (fold_right oandb (Some true) (map (cev (upd s i v)) l)) as [t2|] eqn:E2; [|discriminate].
      destruct (Hc U1 s v v' _ E1 L) as (t1' & -> & P1). destruct (IH U2 _ eq_refl) as (t2' & -> & P2).
      exists (t1' && t2'). split; auto. simpl in E. injection E as <-. intros Q. apply andb_false_iff in Q as [Q|Q].
      * rewrite P1; auto.
      * rewrite P2, andb_false_r; auto.
Qed.
Lemma upper_down i c : upper i c = true -> down_closed i c.
Proof.
  intros U s v v' E L. destruct (upper_mono i c U s v v' _ E L) as (t' & -> & P). rewrite P; auto.
Qed.

Section Tile.
  Variables (I : nat -> list Z -> option Z) (D : string -> Prop) (T : Z) (it i : string) (k : kind) (c : cond) (u : expr) (body : seq).
  Hypothesis HT : 1 < T.
  Hypothesis Hca : avoids (minus D i) (catoms c).
  Hypothesis Hsb : scoped (minus D i) body.
  Hypothesis Dit : D it.
  Hypothesis Di : D i.
  Hypothesis Nit : it <> i.
  Hypothesis Wit : ~ In it (swrites body).
  Hypothesis Wi : ~ In i (swrites body).
  Hypothesis NB : sbrk body = false.
  Hypothesis Hu : forall s v, eval s u = Some v -> v = s i + 1.
  Hypothesis Hc : down_closed i c.

  Let cin := sand (slt (ESym i) (saddn (ESym it) (EInt T))) c.
  Let uin := saddn (ESym i) (EInt 1).
  Let cout := csubs c i (ESym it).
  Let uout := saddn (ESym it) (EInt T).
  Let inner := SCons (NLoop k i (ESym it) cin uin body) [] SNil.
  Let D' := minus D i.

  Lemma cin_val b t : cev (env_of b) c = Some t -> cev (env_of b) cin = Some ((b i [] <? b it [] + T) && t).
  Proof.
    intros H. apply cev_sand. erewrite cev_slt; [rewrite H; reflexivity|].
    cbn [cev ev]. rewrite (ev_saddn_fin (env_of b) _ _ (b it []) T) by reflexivity. simpl.
    f_equal. unfold env_of. rewrite Z.ltb_antisym. reflexivity.
  Qed.
  Lemma uin_val b : eval (env_of b) uin = Some (b i [] + 1).
  Proof. apply eval_ev. apply ev_saddn_fin; reflexivity. Qed.
  Lemma uout_val b : eval (env_of b) uout = Some (b it [] + T).
  Proof. apply eval_ev. apply ev_saddn_fin; reflexivity. Qed.
  Lemma cout_val b : cev (env_of b) cout = cev (upd (env_of b) i (b it [])) c.
  Proof. apply cev_subs. reflexivity. Qed.

  Lemma c_D' a b : eqs D' a b -> cev (env_of a) c = cev (env_of b) c.
  Proof. intros E. apply (cev_eqx D'); [apply eqs_eqx; auto|]. exact Hca. Qed.

  Lemma eqs_D' a b : eqs D' a b -> eqs D a b.
  Proof. apply eqs_sub. intros x [? _]; auto. Qed.
  Lemma eqs_i a b : eqs D' a b -> a i [] = b i [].
  Proof. intros E. destruct (E i []) as [[[_ Q] _]|]; congruence. Qed.
  Lemma eqs_it a b v : eqs D' a b -> eqs D' a (wr b it [] v).
  Proof.
    intros E x j. unfold wr. destruct (String.eqb_spec it x) as [<-|]; simpl; auto.
    destruct j; simpl; auto. left. repeat split; auto.
  Qed.
  Lemma eqs_i_same a b : eqs D' a b -> eqs D' a (wr b i [] (a i [])).
  Proof.
    intros E x j. unfold wr. destruct (String.eqb_spec i x) as [<-|]; simpl; auto. destruct j; simpl; auto.
  Qed.
  (** the condition of the outer loop, at the next tile *)
  Lemma cout_next a b v t : eqs D' a b -> cev (upd (env_of a) i v) c = Some t ->
    cev (env_of (wr b it [] v)) cout = Some t.
  Proof.
    intros E H. rewrite cout_val. rewrite <- H. apply cev_agree. intros y Hy.
    assert (~ D' y) as Ny by exact (Hca y Hy).
    destruct (String.eqb_spec i y) as [<-|Ne]; [rewrite !upd_same; apply wr_same|].
    rewrite !upd_other by auto. unfold env_of. destruct (E y []) as [[Q _]|Q]; [contradiction|]. rewrite Q. apply wr_other. left.
    intros <-. apply Ny. split; auto.
  Qed.

  Lemma upd_i_same a : forall t, cev (env_of a) c = Some t -> cev (upd (env_of a) i (a i [])) c = Some t.
  Proof. intros t <-. apply cev_agree. intros y _. unfold upd, env_of. destruct (String.eqb_spec i y); subst; auto. Qed.

  (** one tile step: from the head of the inner loop *)
  Definition rest (o : outcome) (a' b : store) : Prop :=
    exists o1 b1, runl I i cin uin body b o1 b1 /\
      ((o1 = ONorm /\ b1 it [] = b it [] /\
        exists b', runl I it cout uout inner (wr b1 it [] (b it [] + T)) o b' /\ eqs D' a' b') \/
       (exists r, o1 = ORet r /\ o = ORet r /\ eqs D' a' b1)).

  (** from the end of a tile, start the next one *)
  Lemma next_tile a b o a' : eqs D' a b -> a i [] = b it [] + T -> cev (env_of a) c = Some true ->
    (forall b2, eqs D' a b2 -> b2 it [] = a i [] -> rest o a' b2) -> rest o a' b.
  Proof.
    intros E Q C H. pose proof (eqs_i _ _ E) as Ei.
    exists ONorm, b. split.
    { apply R_lend. rewrite (cin_val b true); [|rewrite <- (c_D' a b); auto]. f_equal. rewrite <- Ei, Q, Z.ltb_irrefl. reflexivity. }
    left. split; [reflexivity|]. split; [reflexivity|]. rewrite <- Q.
    set (b2 := wr b it [] (a i [])). set (b3 := wr b2 i [] (a i [])).
    assert (eqs D' a b3) as E3 by (apply eqs_i_same, eqs_it; auto).
    assert (b3 it [] = a i []) as Q3.
    { unfold b3, b2. rewrite wr_other by (left; congruence). apply wr_same. }
    assert (cev (env_of b2) cout = Some true) as Co.
    { apply (cout_next a); auto. apply upd_i_same; auto. }
    assert (eval (env_of b2) (ESym it) = Some (a i [])) as Ev.
    { unfold eval; simpl. unfold env_of, b2. rewrite wr_same. reflexivity. }
    destruct (H b3 E3 Q3) as (o1 & b1 & R1 & [(-> & Q1 & b' & R2 & E2)|(r & -> & -> & E2)]).
    - exists b'. split; auto. eapply R_lnext.
      + exact Co.
      + eapply R_cons; [eapply R_loop; [exact Ev|exact R1]|reflexivity|constructor].
      + auto.
      + apply uout_val.
      + rewrite Q1. exact R2.
    - exists b1. split; auto. apply R_lret; [exact Co|]. apply R_exit; [|discriminate]. eapply R_loop; [exact Ev|exact R1].
  Qed.

  Lemma tile_runl a o a' : runl I i c u body a o a' ->
    forall b, eqs D' a b -> b it [] <= a i [] <= b it [] + T -> rest o a' b.
  Proof.
    intros R. remember i as i0 in R at 1. remember c as c0 in R. remember u as u0 in R. remember body as body0 in R.
    induction R; subst; intros b E B.
    - (* the loop ends *)
      pose proof (eqs_i _ _ E) as Ei.
      exists ONorm, b. split; [apply R_lend; rewrite (cin_val b false); [rewrite andb_false_r; auto|rewrite <- (c_D' st b); auto]|].
      left. repeat split; auto. exists (wr b it [] (b it [] + T)). split; [|apply eqs_it; auto].
      apply R_lend. apply (cout_next st); auto. apply (Hc _ (st i [])); [|lia]. apply upd_i_same; auto.
    - (* one more iteration *)
      assert (forall b, eqs D' st b -> b it [] <= st i [] < b it [] + T -> rest o st' b) as Step.
      { clear b E B. intros b E B. pose proof (eqs_i _ _ E) as Ei.
        destruct (proj1 (proj2 (ok_frame false false I)) _ _ _ _ H0 D' b) as (q & Rq & Eq); [exact Hsb|auto|].
        assert (q it [] = b it []) as Qit by (eapply runs_writes; eauto).
        assert (st1 i [] = st i []) as Qi by (eapply runs_writes; eauto).
        apply Hu in H2. subst v. unfold env_of in *.
        pose proof (eqs_i _ _ Eq) as Ei'.
        destruct (IHR eq_refl eq_refl eq_refl eq_refl (wr q i [] (st1 i [] + 1))) as (o2 & b2 & R2 & K).
        { apply eqs_wr; auto. }
        { rewrite wr_same, wr_other, Qit by (left; congruence). lia. }
        rewrite (wr_other q i [] _ it []) in K by (left; congruence). rewrite Qit in K.
        exists o2, b2. split.
        - eapply R_lnext; [| |exact H1| |exact R2].
          + rewrite (cin_val b true); [|unfold env_of; rewrite <- H; symmetry; apply (c_D' st b); auto].
            rewrite andb_true_r. f_equal. apply Z.ltb_lt. lia.
          + exact Rq.
          + rewrite uin_val. f_equal. lia.
        - exact K. }
      destruct (Z.eq_dec (st i []) (b it [] + T)) as [Q|Q]; [|apply Step; auto; lia].
      eapply next_tile; eauto. intros b2 E2 Q2. apply Step; auto. lia.
    - exfalso. eapply (proj1 (proj2 (brk_out I))); eauto.
    - assert (forall b, eqs D' st b -> b it [] <= st i [] < b it [] + T -> rest (ORet r) st' b) as Step.
      { clear b E B. intros b E B. pose proof (eqs_i _ _ E) as Ei.
        destruct (proj1 (proj2 (ok_frame false false I)) _ _ _ _ H0 D' b) as (q & Rq & Eq); [exact Hsb|auto|].
        exists (ORet r), q. split; [|right; eauto]. apply R_lret; auto.
        rewrite (cin_val b true); [|rewrite <- H; symmetry; apply (c_D' st b); auto].
        rewrite andb_true_r. f_equal. apply Z.ltb_lt. lia. }
      destruct (Z.eq_dec (st i []) (b it [] + T)) as [Q|Q]; [|apply Step; auto; lia].
      eapply next_tile; eauto. intros b2 E2 Q2. apply Step; auto. lia.
  Qed.

  (** the whole nest, from equal stores up to D' *)
  Lemma tile_run v a o a' b : runl I i c u body (wr a i [] v) o a' ->
    (forall x j, (D x /\ j = []) \/ a x j = b x j) ->
    exists b', runl I it cout uout inner (wr b it [] v) o b' /\
      if match cev (upd (env_of a) i v) c with Some true => true | _ => false end
      then eqs D' a' b' else eqs D a' b'.
  Proof.
    intros R E0.
    assert (forall t, cev (env_of (wr a i [] v)) c = Some t -> cev (upd (env_of a) i v) c = Some t) as Cu.
    { intros t <-. apply cev_agree. intros y _. symmetry. apply env_wr_scalar. }
    assert (eqs D' (wr a i [] v) (wr b i [] v)) as E1 by (apply eqs_minus; auto).
    assert (forall t, cev (env_of (wr a i [] v)) c = Some t -> cev (env_of (wr b it [] v)) cout = Some t) as Co.
    { intros t H. rewrite cout_val, <- H. apply cev_agree. intros y Hy.
      destruct (String.eqb_spec i y) as [<-|Ne].
      - rewrite upd_same. unfold env_of. rewrite !wr_same. auto.
      - rewrite upd_other by auto. destruct (E1 y []) as [[Q _]|Q]; [exfalso; eapply Hca; eauto|].
        unfold env_of. rewrite Q. rewrite !wr_other; auto. left. intros <-. apply (Hca it Hy). split; auto. }
    assert (cev (env_of (wr a i [] v)) c = Some false /\ o = ONorm /\ a' = wr a i [] v \/ cev (env_of (wr a i [] v)) c = Some true) as [(C & -> & ->)|C].
    { inversion R; subst; auto. }
    - rewrite (Cu _ C). exists (wr b it [] v). split; [apply R_lend; auto|].
      intros x j. destruct j as [|z j]; [|rewrite !wr_other by (right; discriminate); auto].
      unfold wr. destruct (String.eqb_spec i x) as [Q|Q]; [subst; left; auto|].
      destruct (String.eqb_spec it x) as [Q'|Q']; [subst; left; auto|]. simpl. auto.
    - rewrite (Cu _ C). set (b1 := wr (wr b it [] v) i [] v).
      assert (eqs D' (wr a i [] v) b1) as E2.
      { intros x j. unfold b1. destruct (E1 x j) as [|Q]; auto. rewrite Q. unfold wr.
        destruct (String.eqb_spec i x) as [<-|]; simpl; auto.
        - destruct j; simpl; auto. destruct (String.eqb_spec it i); [congruence|auto].
        - destruct (String.eqb_spec it x) as [<-|]; simpl; auto. destruct j; simpl; auto. left. repeat split; auto. }
      assert (b1 it [] = v) as Qb. { unfold b1. rewrite wr_other by (left; congruence). apply wr_same. }
      assert (eval (env_of (wr b it [] v)) (ESym it) = Some v) as Ev.
      { unfold eval; simpl. unfold env_of. rewrite wr_same. reflexivity. }
      destruct (tile_runl _ _ _ R b1 E2) as (o1 & b2 & R1 & [(-> & Q1 & b' & R2 & E3)|(r & -> & -> & E3)]).
      { rewrite Qb, wr_same. lia. }
      + exists b'. split; auto. eapply R_lnext; [apply Co; auto| |left; reflexivity|apply uout_val|].
        * eapply R_cons; [eapply R_loop; [exact Ev|exact R1]|reflexivity|constructor].
        * rewrite Q1. exact R2.
      + exists b2. split; auto. apply R_lret; [apply Co; auto|]. apply R_exit; [|discriminate]. eapply R_loop; [exact Ev|exact R1].
  Qed.
End Tile.

Lemma fresh_sok p im D :
  (p = false) -> (im = false) ->
  (forall n, avoids D (nnames n) -> nok p im D n) /\
  (forall s, avoids D (snames s) -> sok p im D s) /\
  (forall b, avoids D (bnames b) -> bok p im D b).
Proof.
  intros -> ->.
  assert (forall D, (forall n, avoids D (nnames n) -> nok0 D n) /\ (forall s, avoids D (snames s) -> scoped D s) /\ (forall b, avoids D (bnames b) -> bok false false D b)) as H; [|apply H].
  clear D. intros D.
  assert ((forall n D, avoids D (nnames n) -> nok0 D n) /\ (forall s D, avoids D (snames s) -> scoped D s) /\ (forall b D, avoids D (bnames b) -> bok false false D b)) as (H1 & H2 & H3); [|repeat split; auto].
  clear D. apply ir_mind; cbn [nnames snames bnames nok sok bok]; intros; auto;
    repeat match goal with H : avoids _ (_ :: _) |- _ => apply avoids_cons in H as [? ?] | H : avoids _ (_ ++ _) |- _ => apply avoids_app in H as [? ?] end; auto; try (apply H; assumption).
  - intros x Hx. apply H. unfold block_names, block_reads in *. apply in_concat in Hx as (l & Hl & Hx). apply in_map_iff in Hl as (o & <- & Ho).
    apply in_concat. exists (op_names o). split; [apply in_map; auto|]. unfold op_names. right. auto.
  - repeat split; auto; try discriminate.
    + eapply avoids_weak; [|eassumption]. intros ? []; auto.
    + eapply avoids_weak; [|eassumption]. intros ? []; auto.
    + apply H. eapply avoids_weak; [|eassumption]. intros ? []; auto.
    + destruct k; auto. discriminate.
  - split; [apply H; auto|]. split; [|apply H0; auto]. intros x Hx. match goal with K : avoids _ (asg_names _) |- _ => apply K end. unfold asg_names, asg_reads in *. apply in_concat in Hx as (l & Hl & Hx). apply in_map_iff in Hl as (o & <- & Ho).
    apply in_concat. exists (fst o :: atoms (snd o)). split; [apply (in_map (fun xe => fst xe :: atoms (snd xe))); auto|]. right. auto.
  - split; auto. split; [apply H; auto|apply H0; auto].
Qed.

(** Tiling one loop, started in the same store. *)
Lemma tile_local T A it k i init c u body n' :
  tile_node T A it (NLoop k i init c u body) = Some n' ->
  ~ In it (nnames (NLoop k i init c u body)) -> upper i c = true -> (forall s v, eval s u = Some v -> v = s i + 1) ->
  ~ In i (swrites body) -> sbrk body = false ->
  forall I st o st', run I (NLoop k i init c u body) st o st' ->
  exists st'', run I n' st o st'' /\
    forall x j, x <> it ->
      (x <> i \/ exists v, eval (env_of st) init = Some v /\ cev (upd (env_of st) i v) c = Some true) -> st'' x j = st' x j.
Proof.
  unfold tile_node. destruct (Z.leb_spec T 1); [discriminate|]. destruct (is_contiguous u i A); [|discriminate].
  intros [= <-] F Up Hu Wi NB I st o st' R. inversion R; subst.
  cbn [nnames] in F.
  assert (it <> i) as Nit by (intros ->; apply F; left; auto).
  set (D := fun x => x = it \/ x = i).
  assert (forall x, minus D i x -> x = it) as DD by (intros x [[|] ?]; congruence).
  match goal with H : runl _ _ _ _ _ (wr st i [] ?v) _ _ |- _ =>
    destruct (tile_run I D T it i k c u body) with (v := v) (a := st) (o := o) (a' := st') (b := st) as (b' & Rb & Eb) end; auto.
  - intros x Hx Hd. apply DD in Hd. subst. apply F. right. apply in_or_app; right. apply in_or_app; left; auto.
  - apply (fresh_sok false false (minus D i) eq_refl eq_refl). intros x Hx Hd. apply DD in Hd. subst. apply F. right.
    do 3 (apply in_or_app; right). auto.
  - left; auto.
  - right; auto.
  - intros Hw. apply F. right. do 3 (apply in_or_app; right).
    clear - Hw. assert (Q : (forall n, In it (nwrites n) -> In it (nnames n)) /\ (forall s, In it (swrites s) -> In it (snames s)) /\ (forall b, In it (bwrites b) -> In it (bnames b))).
    { apply ir_mind; cbn [nwrites swrites bwrites nnames snames bnames]; intros; auto; try (match goal with K : In _ [] |- _ => destruct K end).
      - unfold block_names. apply in_map_iff in H as (o & <- & Ho). apply in_concat. exists (op_names o). split; [apply in_map; auto|left; auto].
      - destruct H0 as [->|H0]; [left; auto|]. right. do 3 (apply in_or_app; right). auto.
      - apply in_app_or in H1 as [H1|H1]; [apply in_or_app; left; auto|]. apply in_or_app; right. apply in_app_or in H1 as [H1|H1].
        + apply in_or_app; left. unfold asg_names. apply in_map_iff in H1 as (o & <- & Ho). apply in_concat. exists (fst o :: atoms (snd o)).
          split; [apply (in_map (fun xe => fst xe :: atoms (snd xe))); auto|left; auto].
        + apply in_or_app; right; auto.
      - apply in_app_or in H1 as [H1|H1]; apply in_or_app; right; apply in_or_app; [left|right]; auto. }
    apply Q; auto.
  - apply upper_down; auto.
  - exists b'. split; [eapply R_loop; eauto|]. intros x j Nx Hx. symmetry.
    assert (x <> i -> st' x j = b' x j) as G.
    { intros Ni. destruct (cev (upd (env_of st) i v) c) as [[|]|]; destruct (Eb x j) as [[Q _]|Q]; auto; exfalso;
        first [apply DD in Q; contradiction|destruct Q; contradiction]. }
    destruct Hx as [|(w & Ew & Cw)]; auto.
    assert (w = v) by congruence. subst w. rewrite Cw in Eb. destruct (Eb x j) as [[Q _]|Q]; auto.
Qed.

(** Tiling in context. *)
Definition tile_rel (T : Z) (A : assumptions) (it : string) (D : string -> Prop) (n n' : node) : Prop :=
  exists k i init c u body, n = NLoop k i init c u body /\ tile_node T A it n = Some n' /\
    D it /\ D i /\ it <> i /\ ~ In it (swrites body) /\ ~ In i (swrites body) /\
    upper i c = true /\ (forall s v, eval s u = Some v -> v = s i + 1) /\ sbrk body = false.
Lemma tile_ctx T A it D n n' : tile_rel T A it D n n' -> nok0 D n -> nrefD D n n'.
Proof.
  intros (k & i & init & c & u & body & -> & Ht & Dit & Di & Nit & Wit & Wi & Up & Hu & NB) Ok.
  unfold tile_node in Ht. destruct (Z.leb_spec T 1); [discriminate|]. destruct (is_contiguous u i A); [|discriminate]. injection Ht as <-.
  cbn [nok] in Ok. destruct Ok as (O1 & O2 & O3 & O4 & _).
  intros I a b o a' E R. inversion R; subst.
  match goal with H : runl _ _ _ _ _ (wr a i [] ?v) _ _ |- _ =>
    destruct (tile_run I D T it i k c u body) with (v := v) (a := a) (o := o) (a' := a') (b := b) as (b' & Rb & Eb) end; auto using upper_down.
  exists b'. split; [eapply R_loop; [|exact Rb]; rewrite <- (eval_eqx D a b); auto using eqs_eqx|].
  destruct (match cev (upd (env_of a) i v) c with Some true => true | _ => false end); auto.
  eapply eqs_sub; [|eauto]. intros ? []; auto.
Qed.
