(** C49: DataDependencyAnalysis reports every flow of data from a write to a read,
    on regular programs; refutations outside of them. *)
From Verif Require Import Reach ReachProofs PassCFGProps.
From Coq Require Import Bool.
Open Scope string_scope.
Open Scope Z_scope.

(** [carries sc x T w r] (Users.v): in the log [T] of uses of an execution, the read
    [r] of [x] follows the write [w] of [x], and if [x] is a scalar no other write of
    [x] is in between.  [reported]: [r] is in the set returned by defines([w]).
    Every terminating execution, ending normally or by return, any program,
    any interpretation of the tasklets, any answers of the dominance and memlet
    oracles except that post-dominance has to be right about loops. *)
Theorem C49_reaching_definitions_partial : forall I x sc pd dom cov last p st o st' T w r,
  pdomS I pd [] 0 p -> regular x sc p = true ->
  runsU I [] 0 p st o st' T -> carries sc x T w r -> reported x sc pd dom cov last p w r.
Proof.
  intros I x sc pd dom cov last p st o st' T w r PD OK R C. exact (reach_sound I x sc pd dom cov last p st o st' T w r PD OK R C).
Qed.

(** A definition without reads is never read. *)
Theorem C49_unread_definition_partial : forall I x sc pd dom cov last p w,
  pdomS I pd [] 0 p -> regular x sc p = true ->
  (forall r, ~ reported x sc pd dom cov last p w r) ->
  forall st o st' T r, runsU I [] 0 p st o st' T -> ~ carries sc x T w r.
Proof. intros I x sc pd dom cov last p w PD OK N st o st' T r R C. exact (N r (C49_reaching_definitions_partial _ _ _ _ _ _ _ _ _ _ _ _ _ _ PD OK R C)). Qed.

(** Every executed write has an entry: the assertion in defines()
    (data_dependency_analysis.cpp:943) does not fail for it. Any program. *)
Section Entries.
  Variables (x : string) (sc : bool) (pd dom cov : user -> user -> bool) (last : list def -> bool).
  Definition entry (s : rst) (w : user) : Prop := exists d, In d (opn s ++ cls s) /\ d_u d = w.
  Definition grows (s s' : rst) : Prop := forall w, entry s w -> entry s' w.
  Lemma grows_refl s : grows s s. Proof. intros w H; exact H. Qed.
  Lemma grows_trans a b c : grows a b -> grows b c -> grows a c. Proof. intros H K w E. auto. Qed.
  Lemma entry_map (f : def -> def) s u' w : (forall d, d_u (f d) = d_u d) -> entry s w -> entry (St u' (map f (opn s)) (cls s)) w.
  Proof.
    intros Hf (d & Hd & Q). apply in_app_or in Hd as [Hd|Hd].
    - exists (f d). simpl. split; [apply in_or_app; left; apply in_map; exact Hd|rewrite Hf; exact Q].
    - exists d. simpl. split; [apply in_or_app; auto|exact Q].
  Qed.
  Lemma grows_rd1 art r s : grows s (rd1 last art r s). Proof. intros w. apply entry_map. reflexivity. Qed.
  Lemma grows_rdL r s : grows s (rdL sc dom cov last r s). Proof. intros w. apply entry_map. reflexivity. Qed.
  Lemma grows_wr1 need u s : grows s (wr1 sc pd need u s).
  Proof.
    intros w (d & Hd & Q). exists d. split; [|exact Q]. simpl. right. rewrite !in_app_iff, !filter_In. apply in_app_or in Hd as [Hd|Hd]; [|auto].
    destruct (closes sc pd need u d); simpl; auto.
  Qed.
  Lemma entry_wr1 need u s : entry (wr1 sc pd need u s) u. Proof. exists (D u []). split; [left; reflexivity|reflexivity]. Qed.
  Lemma grows_when b f s : (forall s, grows s (f s)) -> grows s (when b f s). Proof. intros H. destruct b; [apply H|apply grows_refl]. Qed.
  Lemma grows_fold {A} (f : rst -> A -> rst) l : (forall s a, grows s (f s a)) -> forall s, grows s (fold_left f l s).
  Proof. intros H. induction l as [|a l IH]; intros s; simpl; [apply grows_refl|]. eapply grows_trans; [apply H|apply IH]. Qed.
  Lemma grows_visOps p b : forall j s, grows s (visOps x sc pd last p j b s).
  Proof.
    induction b as [|o b IH]; intros j s; simpl; [apply grows_refl|]. eapply grows_trans; [|apply IH].
    eapply grows_trans; [|apply grows_when; intros; apply grows_wr1]. apply grows_when. intros. apply grows_rd1.
  Qed.
  Lemma grows_visA p a s : grows s (visA x sc pd last p a s).
  Proof. unfold visA. eapply grows_trans; [|apply grows_when; intros; apply grows_wr1]. apply grows_when. intros. apply grows_rd1. Qed.
  Lemma grows_open p s : grows s (open_upd x p s).
  Proof. intros w (d & Hd & Q). exists d. split; [right; exact Hd|exact Q]. Qed.
  Lemma grows_head p i init c s : grows s (loop_head x sc pd last p i init c s).
  Proof.
    unfold loop_head. eapply grows_trans; [|apply grows_when; intros; apply grows_rd1].
    eapply grows_trans; [|apply grows_when; intros s0; eapply grows_trans; [apply grows_wr1|apply grows_open]].
    apply grows_when. intros. apply grows_rd1.
  Qed.
  Lemma merge_for_entry b s w : entry b w \/ entry s w -> entry (merge_for sc pd dom cov last b s) w.
  Proof.
    intros H. unfold merge_for. set (s1 := fold_left _ (und b) s).
    assert (K: entry b w \/ entry s1 w) by (destruct H as [H|H]; [auto|right; apply (grows_fold (fun s r => rdL sc dom cov last r s)); [intros; apply grows_rdL|exact H]]).
    destruct K as [(d & Hd & Q)|(d & Hd & Q)]; apply in_app_or in Hd as [Hd|Hd].
    - exists (D (d_u d) (und b ++ d_r d)). split; [|exact Q]. simpl. rewrite !in_app_iff. left. left. apply in_map_iff. exists d. auto.
    - exists d. split; [|exact Q]. simpl. rewrite !in_app_iff. auto.
    - exists d. split; [|exact Q]. simpl. rewrite !in_app_iff, !filter_In. destruct (existsb _ (opn b)); simpl; auto.
    - exists d. split; [|exact Q]. simpl. rewrite !in_app_iff. auto.
  Qed.
  Lemma merge_while_entry b s w : entry b w \/ entry s w -> entry (merge_while last b s) w.
  Proof.
    intros H. unfold merge_while. set (s1 := rds1 last false (und b) s).
    assert (K: entry b w \/ entry s1 w) by (destruct H as [H|H]; [auto|right; apply (grows_fold (fun s r => rd1 last false r s)); [intros; apply grows_rd1|exact H]]).
    destruct K as [(d & Hd & Q)|(d & Hd & Q)]; apply in_app_or in Hd as [Hd|Hd].
    - exists (D (d_u d) (und b ++ d_r d)). split; [|exact Q]. simpl. rewrite !in_app_iff. left. left. apply in_map_iff. exists d. auto.
    - exists d. split; [|exact Q]. simpl. rewrite !in_app_iff. auto.
    - exists d. split; [|exact Q]. simpl. rewrite !in_app_iff. auto.
    - exists d. split; [|exact Q]. simpl. rewrite !in_app_iff. auto.
  Qed.
  Lemma merge_if_entry p c l s w : (exists b, In b l /\ entry b w) \/ entry s w -> entry (merge_if x last p c l s) w.
  Proof. clear pd dom cov.
    intros H. unfold merge_if. set (s1 := rds1 last true (concat (map und l)) s).
    assert (K: (exists d, (In d (concat (map opn l)) \/ In d (concat (map cls l)) \/ In d (opn s1) \/ In d (cls s1)) /\ d_u d = w)).
    { destruct H as [(b & Hb & d & Hd & Q)|H].
      - exists d. split; [|exact Q]. apply in_app_or in Hd as [Hd|Hd]; [left|right; left]; apply in_concat; eexists; (split; [apply in_map; exact Hb|exact Hd]).
      - assert (E: entry s1 w) by (apply (grows_fold (fun s r => rd1 last true r s)); [intros; apply grows_rd1|exact H]).
        destruct E as (d & Hd & Q). exists d. split; [apply in_app_or in Hd; tauto|exact Q]. }
    destruct K as (d & Hd & Q). exists d. split; [|exact Q].
    destruct c; [destruct (cand l)|]; simpl; rewrite !in_app_iff; tauto.
  Qed.
  Notation vN := (visN x sc pd dom cov last).
  Notation vS := (visS x sc pd dom cov last).
  Notation vB := (visB x sc pd dom cov last).
  Lemma grows_vis : (forall n p s, grows s (vN p n s)) /\ (forall q p k s, grows s (vS p k q s)) /\ (forall b : brs, True).
  Proof.
    apply ir_mind; auto.
    - intros b p s. apply grows_visOps.
    - intros q H p s. apply H.
    - intros bs _ p s w E. apply merge_if_entry. right. revert w E. apply grows_when. intros. apply grows_rd1.
    - intros q H p s w E. apply merge_while_entry. auto.
    - intros k i init c u q H p s w E. apply merge_for_entry. right. apply grows_head. exact E.
    - intros p s. apply grows_refl.
    - intros p s. apply grows_refl.
    - intros r p s w E. cbn [visN].
      assert (K: entry (when (String.eqb r x) (rd1 last false (U p URet false x)) s) w) by (revert w E; apply grows_when; intros; apply grows_rd1).
      exact K.
    - intros p k s. apply grows_refl.
    - intros n Hn a r Hr p k s. change (grows s (vS p (S k) r (visA x sc pd last (Kid k :: p) a (vN (Kid k :: p) n s)))).
      eapply grows_trans; [apply Hn|]. eapply grows_trans; [apply grows_visA|apply Hr].
  Qed.
  Lemma rdU_write p e l w : In w (rdU p e l) -> writes_of x w -> False.
  Proof. intros H [K _]. apply in_map_iff in H as (y & <- & _). discriminate. Qed.
  Lemma blkU_entry p b : forall j s w, In w (blkU p j b) -> writes_of x w -> entry (visOps x sc pd last p j b s) w.
  Proof.
    induction b as [|o b IH]; intros j s w H W; [destruct H|]. simpl in H |- *. apply in_app_or in H as [H|H]; [|apply IH; assumption].
    unfold opU in H. apply in_app_or in H as [H|[<-|[]]]; [elim (rdU_write _ _ _ _ H W)|]. destruct W as [_ W]. simpl in W.
    apply grows_visOps. rewrite W, String.eqb_refl. simpl. apply entry_wr1.
  Qed.
  Lemma asgU_entry p a s w : In w (asgU p a) -> writes_of x w -> entry (visA x sc pd last p a s) w.
  Proof.
    intros H W. unfold asgU in H. apply in_concat in H as (l & Hl & H). apply in_map_iff in Hl as ([y e] & <- & Hy). simpl in H.
    apply in_app_or in H as [H|[<-|[]]]; [elim (rdU_write _ _ _ _ H W)|]. destruct W as [_ W]. simpl in W. subst y. unfold visA.
    replace (has x (map fst a)) with true; [apply entry_wr1|]. symmetry. apply has_in. apply in_map_iff. exists (x, e). auto.
  Qed.
  Fixpoint nthB (b : brs) (j : nat) : option seq := match b, j with BNil, _ => None | BCons _ s _, O => Some s | BCons _ _ r, S j => nthB r j end.
  Lemma vB_in b : forall p k j s, nthB b j = Some s -> In (vS (Br (k + j)%nat :: p) 0 s st_empty) (vB p k b).
  Proof.
    induction b as [|c s b IH]; intros p k [|j] t H; simpl in H; try discriminate.
    - injection H as ->. rewrite Nat.add_0_r. left. reflexivity.
    - right. replace (k + S j)%nat with (S k + j)%nat by lia. apply IH. exact H.
  Qed.
  Lemma runU_entry I :
    (forall p n st o st' T, runU I p n st o st' T -> forall s w, In w T -> writes_of x w -> entry (vN p n s) w) /\
    (forall q k t st o st' T, runsU I q k t st o st' T -> forall s w, In w T -> writes_of x w -> entry (vS q k t s) w) /\
    (forall p k b st o st' T, runbU I p k b st o st' T -> forall w, In w T -> writes_of x w -> exists e, In e (vB p k b) /\ entry e w) /\
    (forall p t st o st' T, runwU I p t st o st' T -> forall w, In w T -> writes_of x w -> entry (vS (Body :: p) 0 t st_empty) w) /\
    (forall p i c u t st o st' T, runlU I p i c u t st o st' T -> forall w, In w T -> writes_of x w ->
       entry (vS (Body :: p) 0 t st_empty) w \/ (i = x /\ w = U p UUpd true x)).
  Proof.
    apply runU_mind.
    - intros p b st st' H s w. apply blkU_entry.
    - intros p t st o st' T _ IH s w. apply IH.
    - intros p bs st o st' T _ IH s w Hw W. apply merge_if_entry. left. apply IH; assumption.
    - intros p t st o st' T _ IH s w Hw W. apply merge_while_entry. left. apply IH; assumption.
    - intros p k i init c u t st v o st' T _ _ IH s w Hw W. apply merge_for_entry.
      apply in_app_or in Hw as [Hw|[<-|Hw]]; [elim (rdU_write _ _ _ _ Hw W)| |].
      + right. destruct W as [_ W]. simpl in W. unfold loop_head. rewrite W, String.eqb_refl.
        apply (grows_when (has x (catoms c))); [intros; apply grows_rd1|]. apply grows_open. apply entry_wr1.
      + destruct (IH w Hw W) as [E|[-> ->]].
        * left. revert w Hw W E. intros w _ _. apply grows_when. intros. apply grows_rd1.
        * right. unfold loop_head. rewrite String.eqb_refl.
          apply (grows_when (has x (catoms c))); [intros; apply grows_rd1|]. exists (D (U p UUpd true x) []). split; [left; reflexivity|reflexivity].
    - intros p st s w [].
    - intros p st s w [].
    - intros p r st s w [<-|[]] [W _]. discriminate.
    - intros q k st s w [].
    - intros q k n a r st st1 st2 o st' T1 T2 _ IH1 _ _ IH2 s w Hw W.
      change (entry (vS q (S k) r (visA x sc pd last (Kid k :: q) a (vN (Kid k :: q) n s))) w).
      apply in_app_or in Hw as [Hw|Hw]; [|apply in_app_or in Hw as [Hw|Hw]].
      + apply (proj1 (proj2 grows_vis)). apply grows_visA. apply IH1; assumption.
      + apply (proj1 (proj2 grows_vis)). apply asgU_entry; assumption.
      + apply IH2; assumption.
    - intros q k n a r st o st' T _ IH _ s w Hw W.
      change (entry (vS q (S k) r (visA x sc pd last (Kid k :: q) a (vN (Kid k :: q) n s))) w).
      apply (proj1 (proj2 grows_vis)). apply grows_visA. apply IH; assumption.
    - intros p k st w [].
    - intros p k c s r st o st' T _ _ IH w Hw W. apply in_app_or in Hw as [Hw|Hw]; [elim (rdU_write _ _ _ _ Hw W)|].
      exists (vS (Br k :: p) 0 s st_empty). split; [left; reflexivity|apply IH; assumption].
    - intros p k c s r st o st' T _ _ IH w Hw W. apply in_app_or in Hw as [Hw|Hw]; [elim (rdU_write _ _ _ _ Hw W)|].
      destruct (IH w Hw W) as (e & He & E). exists e. split; [right; exact He|exact E].
    - intros p s st o1 st1 o st' T1 T2 _ IH1 _ _ IH2 w Hw W. apply in_app_or in Hw as [Hw|Hw]; auto.
    - auto.
    - auto.
    - intros p i c u t st _ w Hw W. elim (rdU_write _ _ _ _ Hw W).
    - intros p i c u t st o1 st1 v o st' T1 T2 _ _ IH1 _ _ _ IH2 w Hw W.
      apply in_app_or in Hw as [Hw|Hw]; [elim (rdU_write _ _ _ _ Hw W)|]. apply in_app_or in Hw as [Hw|Hw]; [left; auto|].
      apply in_app_or in Hw as [Hw|[<-|Hw]]; [elim (rdU_write _ _ _ _ Hw W)| |auto]. destruct W as [_ W]. simpl in W. subst i. auto.
    - intros p i c u t st st' T _ _ IH w Hw W. apply in_app_or in Hw as [Hw|Hw]; [elim (rdU_write _ _ _ _ Hw W)|left; auto].
    - intros p i c u t st r st' T _ _ IH w Hw W. apply in_app_or in Hw as [Hw|Hw]; [elim (rdU_write _ _ _ _ Hw W)|left; auto].
  Qed.
End Entries.
Theorem C49_every_write_has_an_entry : forall I x sc pd dom cov last p st o st' T w,
  runsU I [] 0 p st o st' T -> In w T -> writes_of x w ->
  exists d, In d (definitions x sc pd dom cov last p) /\ d_u d = w.
Proof. intros I x sc pd dom cov last p st o st' T w R. exact (proj1 (proj2 (runU_entry x sc pd dom cov last I)) _ _ _ _ _ _ _ R st_empty w). Qed.

(* ---------------------------------------------------------------- *)
(** * The hypotheses are met *)
Fixpoint nodes (l : list node) : seq := match l with [] => SNil | n :: r => SCons n [] (nodes r) end.
(** runs a concrete program *)
Ltac go :=
  lazymatch goal with
  | |- runU _ _ (NBlock _) _ _ _ _ => eapply U_block; reflexivity
  | |- runU _ _ (NSeq _) _ _ _ _ => eapply U_seq; go
  | |- runU _ _ (NIf _) _ _ _ _ => eapply U_if; go
  | |- runU _ _ (NWhile _) _ _ _ _ => eapply U_while; go
  | |- runU _ _ (NLoop _ _ _ _ _ _) _ _ _ _ => eapply U_loop; [reflexivity|go]
  | |- runU _ _ NBreak _ _ _ _ => eapply U_break
  | |- runU _ _ NContinue _ _ _ _ => eapply U_continue
  | |- runU _ _ (NReturn _) _ _ _ _ => eapply U_return
  | |- runsU _ _ _ SNil _ _ _ _ => eapply U_nil
  | |- runsU _ _ _ (SCons _ _ _) _ _ _ _ => first [eapply U_cons; [solve [go]|reflexivity|go] | eapply U_exit; [solve [go]|discriminate]]
  | |- runbU _ _ _ BNil _ _ _ _ => eapply U_bnil
  | |- runbU _ _ _ (BCons _ _ _) _ _ _ _ => first [eapply U_btrue; [reflexivity|solve [go]] | eapply U_bfalse; [reflexivity|go]]
  | |- runwU _ _ _ _ _ _ _ => first [eapply U_wbreak; solve [go] | eapply U_wret; solve [go] | eapply U_wnext; [solve [go]|first [left; reflexivity|right; reflexivity]|go]]
  | |- runlU _ _ _ _ _ _ _ _ _ _ => first [eapply U_lend; reflexivity | eapply U_lnext; [reflexivity|solve [go]|first [left; reflexivity|right; reflexivity]|reflexivity|go]
                                          | eapply U_lbreak; [reflexivity|solve [go]] | eapply U_lret; [reflexivity|solve [go]]]
  | |- runsU _ _ _ ?s _ _ _ _ => let s' := eval hnf in s in change s with s'; go
  | |- runU _ _ ?s _ _ _ _ => let s' := eval hnf in s in change s with s'; go
  end.
(** decides [carries] *)
Fixpoint reachb (k : bool) (x : string) (T : utrace) (r : user) : bool :=
  match T with [] => false | u :: T' => is_u u r || negb (k && u_w u && String.eqb (u_x u) x) && reachb k x T' r end.
Fixpoint carriesb (k : bool) (x : string) (T : utrace) (w r : user) : bool :=
  match T with [] => false | u :: T' => is_u u w && reachb k x T' r || carriesb k x T' w r end.
Lemma reachb_ok k x r : forall T, reachb k x T r = true -> exists B C, T = (B ++ r :: C)%list /\ (k = true -> forall u, In u B -> ~ writes_of x u).
Proof.
  induction T as [|u T IH]; intros H; [discriminate|]. simpl in H. apply orb_true_iff in H as [H|H].
  - apply is_u_eq in H as ->. exists [], T. split; [reflexivity|intros _ v []].
  - apply andb_true_iff in H as [H1 H2]. destruct (IH H2) as (B & C & -> & K). exists (u :: B), C. split; [reflexivity|].
    intros Hk v [<-|Hv] [W1 W2]; [|exact (K Hk v Hv (conj W1 W2))]. rewrite Hk, W1, W2, String.eqb_refl in H1. discriminate.
Qed.
Lemma carriesb_ok k x w r T : u_w w = true -> u_x w = x -> u_w r = false -> u_x r = x -> carriesb k x T w r = true -> carries k x T w r.
Proof.
  intros W1 W2 R1 R2. assert (K: carriesb k x T w r = true -> exists A B C, T = (A ++ w :: B ++ r :: C)%list /\ (k = true -> forall u, In u B -> ~ writes_of x u)).
  { induction T as [|u T IH]; intros H; [discriminate|]. simpl in H. apply orb_true_iff in H as [H|H].
    - apply andb_true_iff in H as [H1 H2]. apply is_u_eq in H1 as ->. destruct (reachb_ok _ _ _ _ H2) as (B & C & -> & K). exists [], B, C. auto.
    - destruct (IH H) as (A & B & C & -> & K). exists (u :: A), B, C. auto. }
  intros H. destruct (K H) as (A & B & C & E & Q). exists A, B, C. split; [exact E|]. split; [split; assumption|split; [split; assumption|exact Q]].
Qed.
Ltac flows := apply carriesb_ok; vm_compute; reflexivity.
(** A flow that no choice of the oracles makes the analysis report. *)
Definition missed (x : string) (sc : bool) (p : seq) (w r : user) : Prop :=
  (exists st o st' T, runsU I0 [] 0 p st o st' T /\ carries sc x T w r) /\ forall pd dom cov last, ~ reported x sc pd dom cov last p w r.
Ltac not_reported := intros pd dom cov last (d & Hd & E1 & E2); vm_compute in Hd; repeat (match type of Hd with context [pd ?a ?b] => destruct (pd a b) end); repeat (destruct Hd as [<-|Hd]; [simpl in E1, E2; try discriminate E1; repeat (destruct E2 as [E2|E2]; [discriminate E2|]); destruct E2|]); try destruct Hd.

(** a = 5; for (i = 0; i < 2; i = i + 1) { b = a; a = i }; c = a *)
Definition c49_p : seq := nodes [set_blk "a" 5;
  NLoop KFor "i" (EInt 0) (CLt (ESym "i") (EInt 2)) (EAdd [ESym "i"; EInt 1]) (nodes [copy_blk "b" "a"; copy_blk "a" "i"]);
  copy_blk "c" "a"].
(** post-dominance reported by every use outside of loops *)
Definition c49_pd (u v : user) : bool := forallb (fun s => match s with Body => false | _ => true end) (u_at u).
Lemma c49_pd_ok I : (forall n p, pdomN I c49_pd p n) /\ (forall s p k, pdomS I c49_pd p k s) /\ (forall b p k, pdomB I c49_pd p k b).
Proof.
  apply ir_mind; try (intros; exact Logic.I).
  - intros s H p. apply H.
  - intros b H p. apply H.
  - intros s H p. apply H.
  - intros k i init c u s H p. split; [|apply H]. intros v v' (l & E) _ K. unfold c49_pd in K. rewrite E, forallb_app in K. simpl in K. rewrite andb_false_r in K. discriminate.
  - intros n Hn a r Hr p k. split; [apply Hn|apply Hr].
  - intros c s Hs r Hr p k. split; [apply Hs|apply Hr].
Qed.
Theorem C49_hypotheses : pdomS I0 c49_pd [] 0 c49_p /\ regular "a" true c49_p = true /\ c49_pd (U [Kid 2] (UOp 0) false "a") (U [Kid 0] (UOp 0) true "a") = true /\
  exists st o st' T, runsU I0 [] 0 c49_p st o st' T /\
    carries true "a" T (U [Kid 1; Body; Kid 1] (UOp 0) true "a") (U [Kid 0; Body; Kid 1] (UOp 0) false "a") /\
    carries true "a" T (U [Kid 0] (UOp 0) true "a") (U [Kid 0; Body; Kid 1] (UOp 0) false "a") /\
    carries true "a" T (U [Kid 1; Body; Kid 1] (UOp 0) true "a") (U [Kid 2] (UOp 0) false "a").
Proof.
  split; [apply c49_pd_ok|]. split; [reflexivity|]. split; [reflexivity|]. exists st0, ONorm. eexists. eexists. split; [go|].
  repeat split; flows.
Qed.

(* ---------------------------------------------------------------- *)
(** * Outside of regular programs flows are missed *)
Definition if_ (c : cond) (s : seq) : node := NIf (BCons c s BNil).
Definition ifelse (x : string) (s t : seq) : node := NIf (BCons (CLt (ESym x) (EInt 1)) s (BCons (CNot (CLt (ESym x) (EInt 1))) t BNil)).
Definition zero (x : string) : cond := CLt (ESym x) (EInt 1).
Definition st_of (l : list (string * Z)) : store := fun x _ => match find (fun e => String.eqb (fst e) x) l with Some (_, v) => v | None => 0 end.

(** A write in a block closes every earlier definition even if a break lies
    between the two: while (true) { a = 1; if (c < 1) break; a = 2 }; b = a. *)
Definition c49_break : seq := nodes [NWhile (nodes [set_blk "a" 1; if_ (zero "c") (nodes [NBreak]); set_blk "a" 2]); copy_blk "b" "a"].
Theorem C49_break_refuted : missed "a" true c49_break (U [Kid 0; Body; Kid 0] (UOp 0) true "a") (U [Kid 1] (UOp 0) false "a").
Proof.
  split; [exists st0, ONorm; eexists; eexists; split; [go|flows]|].
  not_reported.
Qed.
(** A complete if-else closes earlier definitions if every branch mentions a write,
    executed or not: a = 1; if (c < 1) { if (d < 1) a = 2 } else a = 3; b = a. *)
Definition c49_if : seq := nodes [set_blk "a" 1; ifelse "c" (nodes [if_ (zero "d") (nodes [set_blk "a" 2])]) (nodes [set_blk "a" 3]); copy_blk "b" "a"].
Theorem C49_complete_if_refuted : missed "a" true c49_if (U [Kid 0] (UOp 0) true "a") (U [Kid 2] (UOp 0) false "a").
Proof. split; [exists (st_of [("d", 1)]), ONorm; eexists; eexists; split; [go|flows]|]. not_reported. Qed.

(** The same with a loop that makes no iteration: a = 1; if (c < 1) { for (i = 0; i < n; i++) a = 2 } else a = 3; b = a. *)
Definition c49_if2 : seq := nodes [set_blk "a" 1;
  ifelse "c" (nodes [NLoop KFor "i" (EInt 0) (CLt (ESym "i") (ESym "n")) (EAdd [ESym "i"; EInt 1]) (nodes [set_blk "a" 2])]) (nodes [set_blk "a" 3]); copy_blk "b" "a"].
Theorem C49_complete_if_loop_refuted : missed "a" true c49_if2 (U [Kid 0] (UOp 0) true "a") (U [Kid 2] (UOp 0) false "a").
Proof. split; [exists st0, ONorm; eexists; eexists; split; [go|flows]|]. not_reported. Qed.

(** A transition that reads after an incomplete if in a branch:
    a = 1; if (e < 1) { if (c < 1) { a = 2 } ; y := a }. *)
Definition c49_trans : seq := nodes [set_blk "a" 1; if_ (zero "e") (SCons (if_ (zero "c") (nodes [set_blk "a" 2])) [("y", ESym "a")] SNil)].
Theorem C49_transition_refuted : missed "a" true c49_trans (U [Kid 0] (UOp 0) true "a") (U [Kid 0; Br 0; Kid 1] UAsg false "a").
Proof. split; [exists (st_of [("c", 1)]), ONorm; eexists; eexists; split; [go|flows]|]. not_reported. Qed.

(** A loop condition that reads what the body writes: for (i = 0; i < n; i++) { n = 0 }. *)
Definition c49_cond : seq := nodes [NLoop KFor "i" (EInt 0) (CLt (ESym "i") (ESym "n")) (EAdd [ESym "i"; EInt 1]) (nodes [set_blk "n" 0])].
Theorem C49_loop_condition_refuted : missed "n" true c49_cond (U [Kid 0; Body; Kid 0] (UOp 0) true "n") (U [Kid 0] UTest false "n").
Proof. split; [exists (st_of [("n", 1)]), ONorm; eexists; eexists; split; [go|flows]|]. not_reported. Qed.

(** A transition that reads what it wrote: a := 1; y := a in one transition (the
    generated code executes the assignments one after the other). *)
Definition c49_asg : seq := SCons (NBlock []) [("a", EInt 1); ("y", ESym "a")] SNil.
Theorem C49_same_transition_refuted : missed "a" true c49_asg (U [Kid 0] UAsg true "a") (U [Kid 0] UAsg false "a").
Proof. split; [exists st0, ONorm; eexists; eexists; split; [go|flows]|]. not_reported. Qed.

(** Arrays: in a loop body (or a branch) a read that follows a write of another
    element does not leave the body: A[0] = 7; for (i = 0; i < 1; i++) { A[1] = i; b = A[0] }. *)
Definition set_at (x : string) (k z : Z) : node := NBlock [{| o_code := 0; o_ins := [OConst z]; o_out := x; o_sub := [EInt k] |}].
Definition get_at (y x : string) (k : Z) : node := NBlock [{| o_code := 0; o_ins := [ORead x [EInt k]]; o_out := y; o_sub := [] |}].
Definition c49_arr : seq := nodes [set_at "A" 0 7;
  NLoop KFor "i" (EInt 0) (CLt (ESym "i") (EInt 1)) (EAdd [ESym "i"; EInt 1]) (nodes [set_at "A" 1 3; get_at "b" "A" 0])].
Theorem C49_array_element_refuted : missed "A" false c49_arr (U [Kid 0] (UOp 0) true "A") (U [Kid 1; Body; Kid 1] (UOp 0) false "A").
Proof. split; [exists st0, ONorm; eexists; eexists; split; [go|flows]|]. not_reported. Qed.
(** a complete if-else over other elements: A[0] = 7; if (c < 1) A[1] = 2 else A[1] = 3; b = A[0] *)
Definition c49_arr2 : seq := nodes [set_at "A" 0 7; ifelse "c" (nodes [set_at "A" 1 2]) (nodes [set_at "A" 1 3]); get_at "b" "A" 0].
Theorem C49_array_complete_if_refuted : missed "A" false c49_arr2 (U [Kid 0] (UOp 0) true "A") (U [Kid 2] (UOp 0) false "A").
Proof. split; [exists st0, ONorm; eexists; eexists; split; [go|flows]|]. not_reported. Qed.
(** None of these programs is regular. *)
Theorem C49_refuted_not_regular : map (regular "a" true) [c49_break; c49_if; c49_if2; c49_trans; c49_asg] = [false; false; false; false; false] /\
  regular "n" true c49_cond = false /\ regular "A" false c49_arr = false /\ regular "A" false c49_arr2 = false.
Proof. repeat split; reflexivity. Qed.
