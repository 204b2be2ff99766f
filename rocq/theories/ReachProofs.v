(** Soundness of the model of DataDependencyAnalysis (Reach.v) on regular programs. *)
From Verif Require Import Reach SymProps.
From Coq Require Import Bool.

Lemma has_in x l : has x l = true <-> In x l.
Proof.
  unfold has. rewrite existsb_exists. split; [intros (y & H & E); apply String.eqb_eq in E as ->; exact H|].
  intros H. exists x. split; [exact H|apply String.eqb_refl].
Qed.
Lemma has_false x l : has x l = false <-> ~ In x l.
Proof. rewrite <- has_in. destruct (has x l); split; congruence. Qed.
Lemma has_app x a b : has x (a ++ b) = has x a || has x b.
Proof. unfold has. apply existsb_app. Qed.
Lemma impb_true a b : impb a b = true -> a = true -> b = true.
Proof. unfold impb. destruct a; simpl; auto; discriminate. Qed.

Lemma split_app {A} (T1 T2 P Q : list A) w : T1 ++ T2 = P ++ w :: Q ->
  (exists Q1, T1 = P ++ w :: Q1 /\ Q = Q1 ++ T2) \/ (exists P2, P = T1 ++ P2 /\ T2 = P2 ++ w :: Q).
Proof.
  revert P. induction T1 as [|t T1 IH]; simpl; intros P H.
  - right. exists P. auto.
  - destruct P as [|q P]; simpl in H.
    + injection H as -> H. left. exists T1. auto.
    + injection H as -> H. destruct (IH P H) as [(Q1 & -> & ->)|(P2 & -> & ->)]; [left; exists Q1; auto|right; exists P2; auto].
Qed.
Lemma within_trans a b c : within a b -> within b c -> within a c.
Proof. intros (l & ->) (m & ->). exists (m ++ l). rewrite app_assoc. reflexivity. Qed.
Lemma within_refl a : within a a. Proof. exists []. reflexivity. Qed.
Lemma within_cons e a : within a (e :: a). Proof. exists [e]. reflexivity. Qed.
Lemma within_kid k k' q p : within (Kid k :: q) p -> within (Kid k' :: q) p -> k = k'.
Proof.
  intros (l & ->) (m & E). replace (l ++ Kid k :: q) with ((l ++ [Kid k]) ++ q) in E by (rewrite <- app_assoc; reflexivity).
  replace (m ++ Kid k' :: q) with ((m ++ [Kid k']) ++ q) in E by (rewrite <- app_assoc; reflexivity).
  apply app_inv_tail in E. apply app_inj_tail in E as [_ E]. congruence.
Qed.
Lemma within_len a b : within a b -> (List.length a <= List.length b)%nat.
Proof. intros (l & ->). rewrite app_length. lia. Qed.
Lemma not_within_self e p : ~ within (e :: p) p.
Proof. intros H. apply within_len in H. simpl in H. lia. Qed.

Section Sound.
  Variable I : nat -> list Z -> option Z.
  Variable x : string.
  Variable sc : bool.
  Variables pd dom cov : user -> user -> bool.
  Variable last : list def -> bool.

  Notation wx := (writes_of x).
  Notation rx := (reads_of x).
  Definition nw (T : utrace) : Prop := forall u, In u T -> ~ wx u.
  Definition live (T : utrace) (w : user) : Prop := exists A B, T = A ++ w :: B /\ wx w /\ (sc = true -> nw B).
  Definition expo (T : utrace) (r : user) : Prop := exists A B, T = A ++ r :: B /\ rx r /\ (sc = true -> nw A).
  Notation flow := (carries sc x).

  Lemma nw_app A B : nw (A ++ B) <-> nw A /\ nw B.
  Proof.
    unfold nw. split.
    - intros H. split; intros u Hu; apply H; apply in_or_app; auto.
    - intros [H K] u Hu. apply in_app_or in Hu as [Hu|Hu]; auto.
  Qed.
  Lemma nw_nil : nw []. Proof. intros u []. Qed.
  Lemma live_app T1 T2 w : live (T1 ++ T2) w -> live T2 w \/ (live T1 w /\ (sc = true -> nw T2)).
  Proof.
    intros (A & B & E & W & N). apply split_app in E as [(B1 & -> & ->)|(A2 & -> & ->)].
    - right. split; [exists A, B1; split; [reflexivity|split; [exact W|]]|]; intros Q; apply N in Q; apply nw_app in Q; tauto.
    - left. exists A2, B. auto.
  Qed.
  Lemma expo_app T1 T2 r : expo (T1 ++ T2) r -> expo T1 r \/ ((sc = true -> nw T1) /\ expo T2 r).
  Proof.
    intros (A & B & E & W & N). apply split_app in E as [(B1 & -> & ->)|(A2 & -> & ->)].
    - left. exists A, B1. auto.
    - right. split; [intros Q; apply N in Q; apply nw_app in Q; tauto|]. exists A2, B. split; [reflexivity|split; [exact W|]].
      intros Q; apply N in Q; apply nw_app in Q; tauto.
  Qed.
  Lemma flow_app T1 T2 w r : flow (T1 ++ T2) w r -> flow T1 w r \/ flow T2 w r \/ (live T1 w /\ expo T2 r).
  Proof.
    intros (A & B & C & E & W & R & N). apply split_app in E as [(B1 & -> & E)|(A2 & -> & ->)].
    - symmetry in E. apply split_app in E as [(B2 & -> & ->)|(B2 & -> & ->)].
      + left. exists A, B, B2. auto.
      + right. right. split.
        * exists A, B1. split; [reflexivity|split; [exact W|]]. intros Q u Hu. apply (N Q). apply in_or_app; auto.
        * exists B2, C. split; [reflexivity|split; [exact R|]]. intros Q u Hu. apply (N Q). apply in_or_app; auto.
    - right. left. exists A2, B, C. auto.
  Qed.
  Lemma not_live_nil w : ~ live [] w. Proof. intros (A & B & E & _). destruct A; discriminate. Qed.
  Lemma not_expo_nil w : ~ expo [] w. Proof. intros (A & B & E & _). destruct A; discriminate. Qed.
  Lemma not_flow_nil w r : ~ flow [] w r. Proof. intros (A & B & C & E & _). destruct A; discriminate. Qed.
  Lemma live_in T w : live T w -> In w T /\ wx w.
  Proof. intros (A & B & -> & W & _). split; [apply in_or_app; simpl; auto|exact W]. Qed.
  Lemma expo_in T w : expo T w -> In w T /\ rx w.
  Proof. intros (A & B & -> & W & _). split; [apply in_or_app; simpl; auto|exact W]. Qed.
  Lemma flow_live T w r : flow T w r -> ~ nw T /\ exists u, In u T /\ rx u.
  Proof.
    intros (A & B & C & -> & W & R & _). split.
    - intros N. apply (N w); [apply in_or_app; simpl; auto|exact W].
    - exists r. split; [|exact R]. apply in_or_app. right. right. apply in_or_app. simpl. auto.
  Qed.
  (** a list of reads *)
  Lemma rdU_in p e l u : In u (rdU p e l) -> u_w u = false /\ u_at u = p /\ u_el u = e /\ In (u_x u) l.
  Proof. intros H. apply in_map_iff in H as (y & <- & H). auto. Qed.
  Lemma rdU_nw p e l : nw (rdU p e l).
  Proof. intros u H [W _]. apply rdU_in in H as [H _]. congruence. Qed.
  Lemma rdU_expo p e l r : expo (rdU p e l) r -> r = U p e false x /\ has x l = true.
  Proof.
    intros H. apply expo_in in H as [H [_ Q]]. apply in_map_iff in H as (y & <- & H). simpl in Q. subst y.
    split; [reflexivity|apply has_in; exact H].
  Qed.
  Lemma rdU_noflow p e l w r : ~ flow (rdU p e l) w r.
  Proof. intros H. apply flow_live in H as [H _]. apply H. apply rdU_nw. Qed.
  Lemma rdU_nolive p e l w : ~ live (rdU p e l) w.
  Proof. intros H. apply live_in in H as [H W]. exact (rdU_nw _ _ _ _ H W). Qed.

  (* ------------------------------------------------------------ *)
  (** What a batch of reads does to a state. *)
  Definition ext1 (l : list user) (d d1 : def) : Prop := d_u d1 = d_u d /\ incl (d_r d) (d_r d1) /\ incl l (d_r d1).
  Definition batch (l : list user) (s s1 : rst) : Prop :=
    incl (und s) (und s1) /\ Forall2 (ext1 l) (opn s) (opn s1) /\ cls s1 = cls s /\ (opn s = [] -> incl l (und s1)).
  Lemma batch_nil s : batch [] s s.
  Proof.
    split; [apply incl_refl|]. split; [|split; [reflexivity|intros _ y []]].
    induction (opn s) as [|d l IH]; constructor; auto. split; [reflexivity|split; [apply incl_refl|intros y []]].
  Qed.
  Lemma batch_link r s u' : incl (und s) u' -> (opn s = [] -> In r u') -> batch [r] s (St u' (map (link r) (opn s)) (cls s)).
  Proof.
    intros A B. split; [exact A|]. split; [|split; [reflexivity|intros Q y [<-|[]]; auto]]. simpl. clear.
    induction (opn s) as [|d l IH]; constructor; auto. split; [reflexivity|split; [apply incl_tl; apply incl_refl|intros y [<-|[]]; left; reflexivity]].
  Qed.
  Lemma batch_rd1 art r s : batch [r] s (rd1 last art r s).
  Proof.
    unfold rd1. apply batch_link.
    - destruct (_ || _); [apply incl_tl|]; apply incl_refl.
    - intros ->. left. reflexivity.
  Qed.
  Lemma batch_rdL r s : batch [r] s (rdL sc dom cov last r s).
  Proof.
    unfold rdL. apply batch_link.
    - destruct (_ || _); [apply incl_tl|]; apply incl_refl.
    - intros ->. left. reflexivity.
  Qed.
  Lemma ext_trans l1 l2 a b c : Forall2 (ext1 l1) a b -> Forall2 (ext1 l2) b c -> Forall2 (ext1 (l1 ++ l2)) a c.
  Proof.
    intros A. revert c. induction A as [|d e a b (X & Y & Z) A IH]; intros c B; inversion B as [|e' g b' c' (X2 & Y2 & Z2) B2]; subst; constructor; [|apply IH; exact B2].
    split; [congruence|]. split; [eapply incl_tran; eassumption|]. apply incl_app; [eapply incl_tran; eassumption|exact Z2].
  Qed.
  Lemma batch_trans l1 l2 s s1 s2 : batch l1 s s1 -> batch l2 s1 s2 -> batch (l1 ++ l2) s s2.
  Proof.
    intros (A1 & B1 & C1 & E1) (A2 & B2 & C2 & E2). split; [eapply incl_tran; eassumption|]. split; [eapply ext_trans; eassumption|].
    split; [congruence|]. intros Q. apply incl_app; [eapply incl_tran; [apply E1; exact Q|exact A2]|]. apply E2.
    rewrite Q in B1. inversion B1. reflexivity.
  Qed.
  Lemma batch_rds1 art l : forall s, batch l s (rds1 last art l s).
  Proof.
    induction l as [|r l IH]; intros s; [apply batch_nil|]. exact (batch_trans [r] l s _ _ (batch_rd1 art r s) (IH _)).
  Qed.
  Lemma batch_rdsL l : forall s, batch l s (fold_left (fun s r => rdL sc dom cov last r s) l s).
  Proof.
    induction l as [|r l IH]; intros s; [apply batch_nil|]. exact (batch_trans [r] l s _ _ (batch_rdL r s) (IH _)).
  Qed.
  Lemma ext_fwd l a b d : Forall2 (ext1 l) a b -> In d a -> exists d1, In d1 b /\ d_u d1 = d_u d /\ incl (d_r d) (d_r d1) /\ incl l (d_r d1).
  Proof.
    intros B. induction B as [|e e1 a b (X & Y & Z) B IH]; intros K; [destruct K|destruct K as [<-|K]].
    - exists e1. split; [left; reflexivity|auto].
    - destruct (IH K) as (d2 & K2 & L). exists d2. split; [right; exact K2|exact L].
  Qed.
  Lemma ext_bwd l a b d1 : Forall2 (ext1 l) a b -> In d1 b -> exists d, In d a /\ d_u d1 = d_u d.
  Proof.
    intros B. induction B as [|e e1 a b (X & Y & Z) B IH]; intros K; [destruct K|destruct K as [<-|K]].
    - exists e. split; [left; reflexivity|exact X].
    - destruct (IH K) as (d2 & K2 & L). exists d2. split; [right; exact K2|exact L].
  Qed.

  (* ------------------------------------------------------------ *)
  Definition tset := utrace -> Prop.
  Definition cat (A B : tset) : tset := fun T => exists T1 T2, A T1 /\ B T2 /\ T = T1 ++ T2.
  Record Inv (q0 : path) (F : path -> Prop) (p : pos) (s : rst) (Ts Es Rs : tset) : Prop := {
    v_exp : strict p = true -> forall T r, Ts T \/ Es T \/ Rs T -> expo T r -> In r (und s);
    v_live : forall T w, Ts T \/ Es T -> live T w -> exists d, In d (opn s) /\ d_u d = w;
    v_flow : forall T w r, Ts T \/ Es T \/ Rs T -> flow T w r -> exists d, In d (opn s ++ cls s) /\ d_u d = w /\ In r (d_r d);
    v_opn : forall d, In d (opn s) -> wx (d_u d) /\ within q0 (u_at (d_u d)) /\ ~ F (u_at (d_u d));
    v_may : may p = false -> opn s = [] /\ cls s = [] /\ forall T, Ts T \/ Es T \/ Rs T -> nw T;
    v_must : must p = true -> forall T, Ts T -> ~ nw T;
    v_lock : lock p = false -> forall T, Es T -> nw T }.

  Definition orS (A B : tset) : tset := fun T => A T \/ B T.
  Lemma merge q0 F F' p p' s s1 s2 l (Ts Es Rs XN XE XR : tset) :
    Inv q0 F p s Ts Es Rs -> batch l s s1 -> incl (und s1) (und s2) -> incl (opn s1 ++ cls s1) (opn s2 ++ cls s2) ->
    (forall X r, XN X \/ XE X \/ XR X -> expo X r -> In r l /\ rdok sc p = true) ->
    (forall X w, XN X \/ XE X -> live X w -> exists d, In d (opn s2) /\ d_u d = w) ->
    (forall X w r, XN X \/ XE X \/ XR X -> flow X w r -> exists d, In d (opn s2 ++ cls s2) /\ d_u d = w /\ In r (d_r d)) ->
    (forall d, In d (opn s1) -> In d (opn s2) \/ ((forall X, XN X \/ XE X -> sc = true /\ ~ nw X) /\ forall T, Es T -> nw T)) ->
    (forall d, In d (opn s2) -> wx (d_u d) /\ within q0 (u_at (d_u d)) /\ ~ F' (u_at (d_u d))) ->
    strict p' = strict p ->
    (may p' = false -> may p = false /\ opn s2 = [] /\ cls s2 = [] /\ forall X, XN X \/ XE X \/ XR X -> nw X) ->
    (must p' = true -> must p = true \/ forall X, XN X -> ~ nw X) ->
    (lock p' = false -> lock p = false /\ ((forall X, ~ XE X) \/ may p = false /\ forall X, XE X -> nw X)) ->
    Inv q0 F' p' s2 (cat Ts XN) (orS Es (cat Ts XE)) (orS Rs (cat Ts XR)).
  Proof.
    intros V (B1 & B2 & B3 & B4) U O EX LV FL KP OP S M1 M2 M3. constructor.
    - rewrite S. intros St T r HT HE.
      assert (Old: forall T0, Ts T0 \/ Es T0 \/ Rs T0 -> expo T0 r -> In r (und s2)) by (intros T0 K1 K2; apply U, B1; eapply v_exp; eassumption).
      assert (New: cat Ts (fun X => XN X \/ XE X \/ XR X) T -> In r (und s2)).
      { intros (T1 & X & H1 & H2 & ->). apply expo_app in HE as [HE|[HN HE]]; [apply (Old T1); auto|].
        destruct (EX X r H2 HE) as [HL HR]. unfold rdok in HR. rewrite St in HR. simpl in HR. apply orb_true_iff in HR as [HR|HR].
        - apply negb_true_iff in HR. destruct (v_may _ _ _ _ _ _ _ V HR) as (Q & _). apply U, B4; assumption.
        - apply andb_true_iff in HR as [HR1 HR2]. elim (v_must _ _ _ _ _ _ _ V HR2 T1 H1). auto. }
      destruct HT as [HT|[[HT|HT]|[HT|HT]]]; [|apply (Old T); auto| |apply (Old T); auto|]; apply New; destruct HT as (T1 & X & H1 & H2 & ->); exists T1, X; auto.
    - intros T w HT HL.
      assert (New: forall T1 X, T = T1 ++ X -> Ts T1 -> XN X \/ XE X -> exists d, In d (opn s2) /\ d_u d = w).
      { intros T1 X -> H1 H2. apply live_app in HL as [HL|[HL HN]]; [eapply LV; eassumption|].
        destruct (v_live _ _ _ _ _ _ _ V T1 w (or_introl H1) HL) as (d & Hd & Q). destruct (ext_fwd _ _ _ _ B2 Hd) as (d1 & Hd1 & Q1 & _).
        destruct (KP d1 Hd1) as [K|[K _]]; [exists d1; split; [exact K|congruence]|]. destruct (K X H2) as [K1 K2]. elim K2. auto. }
      destruct HT as [(T1 & X & H1 & H2 & E)|[HT|(T1 & X & H1 & H2 & E)]]; [eapply New; eauto| |eapply New; eauto].
      destruct (v_live _ _ _ _ _ _ _ V T w (or_intror HT) HL) as (d & Hd & Q). destruct (ext_fwd _ _ _ _ B2 Hd) as (d1 & Hd1 & Q1 & _).
      destruct (KP d1 Hd1) as [K|[_ K]]; [exists d1; split; [exact K|congruence]|].
      apply live_in in HL as [HL W]. elim (K T HT w HL W).
    - intros T w r HT HF.
      assert (Old: forall T0, Ts T0 \/ Es T0 \/ Rs T0 -> flow T0 w r -> exists d, In d (opn s2 ++ cls s2) /\ d_u d = w /\ In r (d_r d)).
      { intros T0 K1 K2. destruct (v_flow _ _ _ _ _ _ _ V T0 w r K1 K2) as (d & Hd & Q & R). apply in_app_or in Hd as [Hd|Hd].
        - destruct (ext_fwd _ _ _ _ B2 Hd) as (d1 & Hd1 & Q1 & I1 & _). exists d1. split; [apply O; apply in_or_app; auto|]. split; [congruence|auto].
        - exists d. split; [apply O; apply in_or_app; right; rewrite B3; exact Hd|auto]. }
      assert (New: cat Ts (fun X => XN X \/ XE X \/ XR X) T -> exists d, In d (opn s2 ++ cls s2) /\ d_u d = w /\ In r (d_r d)).
      { intros (T1 & X & H1 & H2 & ->). apply flow_app in HF as [HF|[HF|[HL HE]]]; [apply (Old T1); auto|eapply FL; eassumption|].
        destruct (EX X r H2 HE) as [HI _]. destruct (v_live _ _ _ _ _ _ _ V T1 w (or_introl H1) HL) as (d & Hd & Q).
        destruct (ext_fwd _ _ _ _ B2 Hd) as (d1 & Hd1 & Q1 & I1 & I2). exists d1. split; [apply O; apply in_or_app; auto|]. split; [congruence|auto]. }
      destruct HT as [HT|[[HT|HT]|[HT|HT]]]; [|apply (Old T); auto| |apply (Old T); auto|]; apply New; destruct HT as (T1 & X & H1 & H2 & ->); exists T1, X; auto.
    - exact OP.
    - intros M. destruct (M1 M) as (A & B & C & E). split; [exact B|]. split; [exact C|]. destruct (v_may _ _ _ _ _ _ _ V A) as (_ & _ & K).
      intros T [(T1 & X & H1 & H2 & ->)|[[HT|(T1 & X & H1 & H2 & ->)]|[HT|(T1 & X & H1 & H2 & ->)]]]; [| apply K; auto| |apply K; auto|]; apply nw_app; (split; [apply K; auto|apply E; auto]).
    - intros M T (T1 & X & H1 & H2 & ->) N. apply nw_app in N as [N1 N2]. destruct (M2 M) as [A|A]; [exact (v_must _ _ _ _ _ _ _ V A T1 H1 N1)|exact (A X H2 N2)].
    - intros M. destruct (M3 M) as (A & B). intros T [HT|(T1 & X & H1 & H2 & ->)]; [eapply v_lock; eassumption|].
      destruct B as [B|[B1' B]]; [elim (B X H2)|]. apply nw_app. split; [|apply B; exact H2].
      destruct (v_may _ _ _ _ _ _ _ V B1') as (_ & _ & K). apply K. auto.
  Qed.
  (** smaller sets, weaker position, smaller future *)
  Lemma inv_weak q0 (F F' : path -> Prop) p p' s (Ts Es Rs Ts' Es' Rs' : tset) : Inv q0 F p s Ts Es Rs ->
    (forall T, Ts' T -> Ts T) -> (forall T, Es' T -> Es T) -> (forall T, Rs' T -> Rs T) -> (forall a, F' a -> F a) ->
    strict p' = strict p -> (may p' = false -> may p = false) -> (must p' = true -> must p = true) -> (lock p' = false -> lock p = false) ->
    Inv q0 F' p' s Ts' Es' Rs'.
  Proof.
    intros V A B C FF S M1 M2 M3. constructor.
    - rewrite S. intros K T r HT. apply (v_exp _ _ _ _ _ _ _ V K). destruct HT as [HT|[HT|HT]]; auto.
    - intros T w HT. apply (v_live _ _ _ _ _ _ _ V). destruct HT; auto.
    - intros T w r HT. apply (v_flow _ _ _ _ _ _ _ V). destruct HT as [HT|[HT|HT]]; auto.
    - intros d Hd. destruct (v_opn _ _ _ _ _ _ _ V d Hd) as (X & Y & Z). split; [exact X|split; [exact Y|]]. intros Q. apply Z. auto.
    - intros M. destruct (v_may _ _ _ _ _ _ _ V (M1 M)) as (X & Y & Z). split; [exact X|split; [exact Y|]]. intros T HT. apply Z. destruct HT as [HT|[HT|HT]]; auto.
    - intros M T HT. apply (v_must _ _ _ _ _ _ _ V); auto.
    - intros M T HT. apply (v_lock _ _ _ _ _ _ _ V); auto.
  Qed.

  (* ------------------------------------------------------------ *)
  (** Static facts. *)
  Definition nr (T : utrace) : Prop := forall u, In u T -> ~ rx u.
  Lemma nr_app A B : nr A -> nr B -> nr (A ++ B).
  Proof. intros H K u Hu. apply in_app_or in Hu as [Hu|Hu]; auto. Qed.
  Lemma nw_app2 A B : nw A -> nw B -> nw (A ++ B).
  Proof. intros. apply nw_app. auto. Qed.
  Lemma nw_cons u A : ~ wx u -> nw A -> nw (u :: A).
  Proof. intros H K v [<-|Hv]; auto. Qed.
  Lemma nr_cons u A : ~ rx u -> nr A -> nr (u :: A).
  Proof. intros H K v [<-|Hv]; auto. Qed.
  Lemma nr_rdU p e l : ~ In x l -> nr (rdU p e l).
  Proof. intros N u H [_ Q]. apply rdU_in in H as (_ & _ & _ & H). congruence. Qed.
  Lemma nr_nil : nr []. Proof. intros u []. Qed.
  Lemma in_rds y l : In y (asg_reads l) <-> exists xe, In xe l /\ In y (atoms (snd xe)).
  Proof.
    unfold asg_reads. rewrite in_concat. split.
    - intros (m & H & K). apply in_map_iff in H as (xe & <- & H). eauto.
    - intros (xe & H & K). exists (atoms (snd xe)). split; [apply in_map_iff; eauto|exact K].
  Qed.
  Lemma nw_blk p b : forall j, ~ In x (map o_out b) -> nw (blkU p j b).
  Proof.
    induction b as [|o b IH]; intros j N; simpl; [apply nw_nil|]. apply nw_app2; [|apply IH; simpl in N; tauto].
    unfold opU. apply nw_app2; [apply rdU_nw|]. apply nw_cons; [|apply nw_nil]. intros [_ Q]. apply N. left. exact Q.
  Qed.
  Lemma nr_blk p b : forall j, ~ In x (block_reads b) -> nr (blkU p j b).
  Proof.
    induction b as [|o b IH]; intros j N; simpl; [apply nr_nil|]. unfold block_reads in N, IH. simpl in N. rewrite in_app_iff in N.
    apply nr_app; [|apply IH; tauto]. unfold opU. apply nr_app; [apply nr_rdU; tauto|]. apply nr_cons; [|apply nr_nil]. intros [Q _]. discriminate.
  Qed.
  Lemma nw_asg p a : ~ In x (map fst a) -> nw (asgU p a).
  Proof.
    unfold asgU. induction a as [|[y e] a IH]; intros N; simpl; [apply nw_nil|]. apply nw_app2; [|apply IH; simpl in N; tauto].
    apply nw_app2; [apply rdU_nw|]. apply nw_cons; [|apply nw_nil]. intros [_ Q]. apply N. left. exact Q.
  Qed.
  Lemma nr_asg p a : ~ In x (asg_reads a) -> nr (asgU p a).
  Proof.
    unfold asgU, asg_reads. induction a as [|[y e] a IH]; intros N; simpl; [apply nr_nil|]. simpl in N. rewrite in_app_iff in N. apply nr_app; [|apply IH; tauto].
    apply nr_app; [apply nr_rdU; tauto|]. apply nr_cons; [|apply nr_nil]. intros [Q _]. discriminate.
  Qed.
  Ltac nin := match goal with H : ~ In x _ |- ~ In x _ => let K := fresh in intros K; apply H; simpl in K |- *; rewrite ?in_app_iff in *; clear -K; tauto end.
  Lemma static_nw :
    (forall p n st o st' T, runU I p n st o st' T -> ~ In x (nwrites n) -> nw T) /\
    (forall q k s st o st' T, runsU I q k s st o st' T -> ~ In x (swrites s) -> nw T) /\
    (forall p k b st o st' T, runbU I p k b st o st' T -> ~ In x (bwrites b) -> nw T) /\
    (forall p s st o st' T, runwU I p s st o st' T -> ~ In x (swrites s) -> nw T) /\
    (forall p i c u s st o st' T, runlU I p i c u s st o st' T -> ~ In x (i :: swrites s) -> nw T).
  Proof.
    apply runU_mind; cbn [nwrites swrites bwrites]; intros.
    - apply nw_blk. assumption.
    - auto.
    - auto.
    - auto.
    - apply nw_app2; [apply rdU_nw|]. apply nw_cons; [|auto]. intros [_ Q]. simpl in Q, H2. tauto.
    - apply nw_nil.
    - apply nw_nil.
    - apply nw_cons; [|apply nw_nil]. intros [Q _]. discriminate.
    - apply nw_nil.
    - apply nw_app2; [apply H0; nin|]. apply nw_app2; [apply nw_asg; nin|apply H3; nin].
    - apply H0. nin.
    - apply nw_nil.
    - apply nw_app2; [apply rdU_nw|apply H1; nin].
    - apply nw_app2; [apply rdU_nw|apply H1; nin].
    - apply nw_app2; auto.
    - auto.
    - auto.
    - apply rdU_nw.
    - apply nw_app2; [apply rdU_nw|]. apply nw_app2; [apply H1; nin|]. apply nw_app2; [apply rdU_nw|]. apply nw_cons; [|auto].
      intros [_ Q]. simpl in Q, H6. tauto.
    - apply nw_app2; [apply rdU_nw|apply H1; nin].
    - apply nw_app2; [apply rdU_nw|apply H1; nin].
  Qed.
  Lemma static_nr :
    (forall p n st o st' T, runU I p n st o st' T -> ~ In x (nreads n) -> nr T) /\
    (forall q k s st o st' T, runsU I q k s st o st' T -> ~ In x (sreads s) -> nr T) /\
    (forall p k b st o st' T, runbU I p k b st o st' T -> ~ In x (breads b) -> nr T) /\
    (forall p s st o st' T, runwU I p s st o st' T -> ~ In x (sreads s) -> nr T) /\
    (forall p i c u s st o st' T, runlU I p i c u s st o st' T -> ~ In x (catoms c ++ atoms u ++ sreads s) -> nr T).
  Proof.
    assert (W: forall p e y, ~ rx (U p e true y)) by (intros p e y [Q _]; discriminate).
    apply runU_mind; cbn [nreads sreads breads]; intros.
    - apply nr_blk. assumption.
    - auto.
    - auto.
    - auto.
    - apply nr_app; [apply nr_rdU; nin|]. apply nr_cons; [apply W|]. apply H1. nin.
    - apply nr_nil.
    - apply nr_nil.
    - apply nr_cons; [|apply nr_nil]. intros [_ Q]. simpl in Q, H. tauto.
    - apply nr_nil.
    - apply nr_app; [apply H0; nin|]. apply nr_app; [apply nr_asg; nin|apply H3; nin].
    - apply H0. nin.
    - apply nr_nil.
    - apply nr_app; [apply nr_rdU; nin|apply H1; nin].
    - apply nr_app; [apply nr_rdU; nin|apply H1; nin].
    - apply nr_app; auto.
    - auto.
    - auto.
    - apply nr_rdU. nin.
    - apply nr_app; [apply nr_rdU; nin|]. apply nr_app; [apply H1; nin|]. apply nr_app; [apply nr_rdU; nin|]. apply nr_cons; [apply W|auto].
    - apply nr_app; [apply nr_rdU; nin|apply H1; nin].
    - apply nr_app; [apply nr_rdU; nin|apply H1; nin].
  Qed.
  Definition noesc (o : outcome) : Prop := o <> OBrk /\ o <> OCont.
  Lemma static_esc :
    (forall p n st o st' T, runU I p n st o st' T -> escN n = false -> noesc o) /\
    (forall q k s st o st' T, runsU I q k s st o st' T -> escS s = false -> noesc o) /\
    (forall p k b st o st' T, runbU I p k b st o st' T -> escB b = false -> noesc o) /\
    (forall p s st o st' T, runwU I p s st o st' T -> noesc o) /\
    (forall p i c u s st o st' T, runlU I p i c u s st o st' T -> noesc o).
  Proof.
    apply runU_mind; cbn [escN escS escB]; intros; auto;
      repeat match goal with H : (_ || _)%bool = false |- _ => apply orb_false_iff in H as [? ?] end;
      try discriminate; auto; try (split; discriminate).
  Qed.
  Lemma in_blk p b : forall j, In x (map o_out b) -> ~ nw (blkU p j b).
  Proof.
    induction b as [|o b IH]; intros j H N; [destruct H|]. simpl in N. apply nw_app in N as [N1 N2]. destruct H as [H|H]; [|exact (IH (S j) H N2)].
    apply (N1 (U p (UOp j) true (o_out o))); [apply in_or_app; right; left; reflexivity|split; [reflexivity|exact H]].
  Qed.
  Lemma in_asg p a : In x (map fst a) -> ~ nw (asgU p a).
  Proof.
    unfold asgU. induction a as [|[y e] a IH]; intros H N; [destruct H|]. simpl in N. apply nw_app in N as [N1 N2]. destruct H as [H|H]; [|exact (IH H N2)].
    apply (N1 (U p UAsg true y)); [apply in_or_app; right; left; reflexivity|split; [reflexivity|exact H]].
  Qed.

  Lemma complete_taken b st : complete b = true -> (forall c, In c (bconds b) -> cev (env_of st) c = Some false) -> False.
  Proof.
    unfold complete. destruct (is_complete (bconds b)) as [[|]|] eqn:E; try discriminate. intros _ N.
    destruct (C06_is_complete_sound (bconds b) (env_of st) E) as (c & Hc & K); [intros c Hc; rewrite (N c Hc); discriminate|].
    rewrite (N c Hc) in K. discriminate.
  Qed.
  Lemma static_must :
    (forall p n st o st' T, runU I p n st o st' T -> mustN x n = true -> o = ONorm -> ~ nw T) /\
    (forall q k s st o st' T, runsU I q k s st o st' T -> mustS x s = true -> o = ONorm -> ~ nw T) /\
    (forall p k b st o st' T, runbU I p k b st o st' T -> mustB x b = true -> o = ONorm -> ~ nw T \/ forall c, In c (bconds b) -> cev (env_of st) c = Some false) /\
    (forall p s st o st' T, runwU I p s st o st' T -> True) /\
    (forall p i c u s st o st' T, runlU I p i c u s st o st' T -> True).
  Proof.
    apply runU_mind; cbn [mustN mustS mustB bconds]; intros; auto; try discriminate.
    - apply in_blk. apply has_in. assumption.
    - apply andb_true_iff in H1 as [C M]. destruct (H0 M H2) as [K|K]; [exact K|]. elim (complete_taken _ _ C K).
    - apply String.eqb_eq in H2 as ->. intros N. apply nw_app in N as [_ N]. apply (N (U p UInit true x)); [left; reflexivity|split; reflexivity].
    - intros N. apply nw_app in N as [N1 N]. apply nw_app in N as [N2 N3]. apply orb_true_iff in H4 as [H4|H4]; [apply orb_true_iff in H4 as [H4|H4]|].
      + exact (H0 H4 eq_refl N1).
      + exact (in_asg _ _ (proj1 (has_in _ _) H4) N2).
      + exact (H3 H4 H5 N3).
    - right. intros c [].
    - left. intros N. apply andb_true_iff in H2 as [H2 _]. apply nw_app in N as [_ N]. exact (H1 H2 H3 N).
    - apply andb_true_iff in H2 as [_ H2]. destruct (H1 H2 H3) as [K|K].
      + left. intros N. apply nw_app in N as [_ N]. exact (K N).
      + right. intros c' [<-|Hc]; auto.
  Qed.

  (* ------------------------------------------------------------ *)
  (** Steps. *)
  Definition one (L : utrace) : tset := fun X => X = L.
  Definition none : tset := fun _ => False.
  Definition tN (p : path) (n : node) (o : outcome) : tset := fun T => exists st st', runU I p n st o st' T.
  Definition tS (q : path) (k : nat) (s : seq) (o : outcome) : tset := fun T => exists st st', runsU I q k s st o st' T.
  Definition escs (f : outcome -> tset) : tset := fun T => f OBrk T \/ f OCont T.
  Definition rets (f : outcome -> tset) : tset := fun T => exists r, f (ORet r) T.

  (** reads of one element *)
  Lemma step_reads q0 F p s Ts Es Rs a e l art : Inv q0 F p s Ts Es Rs -> impb (has x l) (rdok sc p) = true ->
    Inv q0 F p (when (has x l) (rd1 last art (U a e false x)) s) (cat Ts (one (rdU a e l))) Es Rs.
  Proof.
    intros V OK.
    set (ru := U a e false x). set (l0 := if has x l then [ru] else []).
    assert (B: batch l0 s (when (has x l) (rd1 last art ru) s)). { unfold l0, when. destruct (has x l); [apply batch_rd1|apply batch_nil]. }
    eapply inv_weak; [eapply (merge q0 F F p p s _ _ l0 Ts Es Rs (one (rdU a e l)) none none V B)| | | | | | | |].
    - apply incl_refl.
    - apply incl_refl.
    - intros X r [->|[[]|[]]] HE. apply rdU_expo in HE as [-> HE]. unfold l0. rewrite HE. split; [left; reflexivity|apply (impb_true _ _ OK HE)].
    - intros X w [->|[]] HL. elim (rdU_nolive _ _ _ _ HL).
    - intros X w r [->|[[]|[]]] HL. elim (rdU_noflow _ _ _ _ _ HL).
    - auto.
    - intros d Hd. destruct B as (_ & B & _). destruct (ext_bwd _ _ _ _ B Hd) as (d0 & Hd0 & ->). exact (v_opn _ _ _ _ _ _ _ V d0 Hd0).
    - reflexivity.
    - intros M. destruct (v_may _ _ _ _ _ _ _ V M) as (Q1 & Q2 & _). split; [exact M|]. destruct B as (_ & B & C & _). rewrite Q1 in B. inversion B as [Q|]. split; [reflexivity|].
      split; [congruence|]. intros X [->|[[]|[]]]. apply rdU_nw.
    - auto.
    - intros M. split; [exact M|]. left. intros X [].
    - intros T HT. exact HT.
    - intros T HT. left. exact HT.
    - intros T HT. left. exact HT.
    - auto.
    - reflexivity.
    - auto.
    - auto.
    - auto.
  Qed.
  (** a write of one element *)
  Lemma step_write q0 F p s Ts Es Rs a e y need : Inv q0 F p s Ts Es Rs -> impb (String.eqb y x) (wrok sc p) = true ->
    within q0 a -> ~ F a ->
    Inv q0 F (wroteb (String.eqb y x) p) (when (String.eqb y x) (wr1 sc pd need (U a e true x)) s) (cat Ts (one [U a e true y])) Es Rs.
  Proof.
    intros V OK W NF. set (w := U a e true x).
    destruct (String.eqb_spec y x) as [->|N]; simpl.
    - fold w. eapply inv_weak; [eapply (merge q0 F F p (wrote p) s s (wr1 sc pd need w s) [] Ts Es Rs (one [w]) none none V (batch_nil s))| | | | | | | |].
      + apply incl_refl.
      + intros d Hd. simpl. apply in_app_or in Hd as [Hd|Hd].
        * destruct (closes sc pd need w d) eqn:C.
          -- right. apply in_or_app. right. apply in_or_app. left. apply filter_In. auto.
          -- right. apply in_or_app. left. apply filter_In. rewrite C. auto.
        * right. apply in_or_app. right. apply in_or_app. auto.
      + intros X r [->|[[]|[]]] HE. apply expo_in in HE as [[<-|[]] [Q _]]. discriminate.
      + intros X u [->|[]] HL. apply live_in in HL as [[<-|[]] _]. exists (D w []). split; [left; reflexivity|reflexivity].
      + intros X u r [->|[[]|[]]] HF. apply flow_live in HF as [_ (v & [<-|[]] & [Q _])]. discriminate.
      + intros d Hd. destruct (closes sc pd need w d) eqn:C; [right|left; simpl; right; apply filter_In; rewrite C; auto].
        assert (S1: sc = true) by (unfold closes in C; apply andb_true_iff in C; tauto).
        split.
        * intros X [->|[]]. split; [exact S1|]. intros K. apply (K w); [left; reflexivity|split; reflexivity].
        * apply (v_lock _ _ _ _ _ _ _ V). simpl in OK. unfold wrok in OK. rewrite S1 in OK. simpl in OK. rewrite orb_false_r in OK. apply negb_true_iff in OK. exact OK.
      + intros d [<-|Hd]; [split; [split; reflexivity|auto]|]. apply filter_In in Hd as [Hd _]. exact (v_opn _ _ _ _ _ _ _ V d Hd).
      + reflexivity.
      + discriminate.
      + intros _. right. intros X -> K. apply (K w); [left; reflexivity|split; reflexivity].
      + intros M. split; [exact M|]. left. intros X [].
      + intros T HT. exact HT.
      + intros T HT. left. exact HT.
      + intros T HT. left. exact HT.
      + auto.
      + reflexivity.
      + auto.
      + auto.
      + auto.
    - assert (NW: nw [U a e true y]) by (apply nw_cons; [intros [_ Q]; simpl in Q; congruence|apply nw_nil]).
      eapply inv_weak; [eapply (merge q0 F F p p s s s [] Ts Es Rs (one [U a e true y]) none none V (batch_nil s))| | | | | | | |].
      + apply incl_refl.
      + apply incl_refl.
      + intros X r [->|[[]|[]]] HE. apply expo_in in HE as [[<-|[]] [Q _]]. discriminate.
      + intros X u [->|[]] HL. apply live_in in HL as [HL K]. elim (NW _ HL K).
      + intros X u r [->|[[]|[]]] HF. apply flow_live in HF as [HF _]. elim (HF NW).
      + auto.
      + apply (v_opn _ _ _ _ _ _ _ V).
      + reflexivity.
      + intros M. destruct (v_may _ _ _ _ _ _ _ V M) as (Q1 & Q2 & _). split; [exact M|]. split; [exact Q1|]. split; [exact Q2|]. intros X [->|[[]|[]]]. exact NW.
      + auto.
      + intros M. split; [exact M|]. left. intros X [].
      + intros T HT. exact HT.
      + intros T HT. left. exact HT.
      + intros T HT. left. exact HT.
      + auto.
      + reflexivity.
      + auto.
      + auto.
      + auto.
  Qed.
  Lemma cat_one Ts a b T : cat Ts (one (a ++ b)) T -> cat (cat Ts (one a)) (one b) T.
  Proof. intros (T1 & X & H & -> & ->). exists (T1 ++ a), b. rewrite app_assoc. split; [exists T1, a|]; repeat split; auto. Qed.
  Lemma cat_nil Ts T : cat Ts (one []) T -> Ts T.
  Proof. intros (T1 & X & H & -> & ->). rewrite app_nil_r. exact H. Qed.
  Lemma inv_sub q0 F p s (Ts Es Rs Ts' Es' Rs' : tset) : Inv q0 F p s Ts Es Rs ->
    (forall T, Ts' T -> Ts T) -> (forall T, Es' T -> Es T) -> (forall T, Rs' T -> Rs T) -> Inv q0 F p s Ts' Es' Rs'.
  Proof. intros V A B C. eapply inv_weak; eauto. Qed.
  Fixpoint opsP (b : block) (p : pos) : pos := match b with [] => p | o :: b' => opsP b' (wroteb (String.eqb (o_out o) x) p) end.
  Lemma step_ops q0 F a Es Rs b : forall j p s Ts, Inv q0 F p s Ts Es Rs -> okOps x sc p b = true -> within q0 a -> ~ F a ->
    Inv q0 F (opsP b p) (visOps x sc pd last a j b s) (cat Ts (one (blkU a j b))) Es Rs.
  Proof.
    induction b as [|o b IH]; intros j p s Ts V OK W NF; simpl.
    - eapply inv_sub; [exact V| | |]; auto. intros T. apply cat_nil.
    - cbn [okOps] in OK. apply andb_true_iff in OK as [OK OK3]. apply andb_true_iff in OK as [OK1 OK2].
      eapply inv_sub; [apply IH; [|exact OK3|exact W|exact NF]| | |].
      + apply step_write; [|exact OK2|exact W|exact NF]. apply step_reads; [exact V|exact OK1].
      + intros T HT. unfold opU in HT. rewrite <- app_assoc in HT. do 2 apply cat_one in HT. exact HT.
      + auto.
      + auto.
  Qed.

  Lemma opsP_eq b : forall p, opsP b p = P (strict p) (may p || has x (map o_out b)) (must p || has x (map o_out b)) (lock p).
  Proof.
    induction b as [|o b IH]; intros [a m t l]; simpl; [rewrite !orb_false_r; reflexivity|]. rewrite IH. rewrite (String.eqb_sym x (o_out o)).
    destruct (String.eqb (o_out o) x); simpl; [rewrite !orb_true_r|]; reflexivity.
  Qed.
  (** transitions *)
  Lemma asg_in p a u : In u (asgU p a) -> (u_w u = false /\ In (u_x u) (asg_reads a) \/ u_w u = true /\ In (u_x u) (map fst a)) /\ u_at u = p /\ u_el u = UAsg.
  Proof.
    unfold asgU, asg_reads. induction a as [|[y e] a IH]; simpl; [intros []|]. intros H. apply in_app_or in H as [H|H].
    - apply in_app_or in H as [H|[<-|[]]]; [|simpl; auto]. apply rdU_in in H as (A & B & C & E). split; [left; split; [exact A|]; apply in_or_app; auto|auto].
    - destruct (IH H) as ([[A B]|[A B]] & C). + split; [left; split; [exact A|apply in_or_app; auto]|exact C]. + split; [right; auto|exact C].
  Qed.
  Lemma user_eta u : u = U (u_at u) (u_el u) (u_w u) (u_x u). Proof. destruct u; reflexivity. Qed.
  Lemma asg_noflow p a w r : okA x a = true -> ~ flow (asgU p a) w r.
  Proof.
    unfold asgU. induction a as [|[y e] a IH]; simpl; intros OK HF; [exact (not_flow_nil _ _ HF)|].
    apply andb_true_iff in OK as [OK1 OK2]. apply flow_app in HF as [HF|[HF|[HL HE]]].
    - apply flow_app in HF as [HF|[HF|[HL HE]]].
      + exact (rdU_noflow _ _ _ _ _ HF).
      + apply flow_live in HF as [_ (v & [<-|[]] & [Q _])]. discriminate.
      + exact (rdU_nolive _ _ _ _ HL).
    - exact (IH OK2 HF).
    - apply live_in in HL as [HL [W1 W2]]. apply in_app_or in HL as [HL|[<-|[]]]; [apply rdU_in in HL as [HL _]; congruence|]. simpl in W2. subst y.
      rewrite String.eqb_refl in OK1. simpl in OK1. apply negb_true_iff, has_false in OK1.
      apply expo_in in HE as [HE RR]. exact (nr_asg p a OK1 _ HE RR).
  Qed.
  Lemma step_asg q0 F p s Ts Es Rs a k : Inv q0 F p s Ts Es Rs ->
    impb (has x (asg_reads k)) (rdok sc p) = true -> okA x k = true -> impb (has x (map fst k)) (wrok sc p) = true -> within q0 a -> ~ F a ->
    Inv q0 F (wroteb (has x (map fst k)) p) (visA x sc pd last a k s) (cat Ts (one (asgU a k))) Es Rs.
  Proof.
    intros V OK1 OK2 OK3 W NF. set (ru := U a UAsg false x). set (w := U a UAsg true x).
    set (l0 := if has x (asg_reads k) then [ru] else []).
    set (s1 := when (has x (asg_reads k)) (rd1 last false ru) s).
    assert (B: batch l0 s s1). { unfold l0, s1, when. destruct (has x (asg_reads k)); [apply batch_rd1|apply batch_nil]. }
    assert (OP1: forall d, In d (opn s1) -> wx (d_u d) /\ within q0 (u_at (d_u d)) /\ ~ F (u_at (d_u d))).
    { intros d Hd. destruct B as (_ & B & _). destruct (ext_bwd _ _ _ _ B Hd) as (d0 & Hd0 & ->). exact (v_opn _ _ _ _ _ _ _ V d0 Hd0). }
    unfold visA. fold ru w s1.
    eapply inv_weak; [eapply (merge q0 F F p (wroteb (has x (map fst k)) p) s s1 _ l0 Ts Es Rs (one (asgU a k)) none none V B)| | | | | | | |].
    - unfold when. destruct (has x (map fst k)); apply incl_refl.
    - unfold when. destruct (has x (map fst k)); [|apply incl_refl]. intros d Hd. simpl. right. apply in_app_or in Hd as [Hd|Hd].
      + destruct (closes sc pd true w d) eqn:C.
        * apply in_or_app. right. apply in_or_app. left. apply filter_In. auto.
        * apply in_or_app. left. apply filter_In. rewrite C. auto.
      + apply in_or_app. right. apply in_or_app. auto.
    - intros X r [->|[[]|[]]] HE. apply expo_in in HE as [HE [R1 R2]]. destruct (asg_in _ _ _ HE) as ([[_ A]|[A _]] & Q1 & Q2); [|congruence].
      rewrite R2 in A. apply has_in in A. unfold l0. rewrite A. split; [left; unfold ru; rewrite (user_eta r); congruence|apply (impb_true _ _ OK1 A)].
    - intros X u [->|[]] HL. apply live_in in HL as [HL [R1 R2]]. destruct (asg_in _ _ _ HL) as ([[A _]|[_ A]] & Q1 & Q2); [congruence|].
      rewrite R2 in A. apply has_in in A. rewrite A. exists (D w []). split; [left; reflexivity|]. simpl. unfold w. rewrite (user_eta u). congruence.
    - intros X u r [->|[[]|[]]] HF. elim (asg_noflow _ _ _ _ OK2 HF).
    - intros d Hd. unfold when. destruct (has x (map fst k)) eqn:Hk; [|left; exact Hd].
      destruct (closes sc pd true w d) eqn:C; [right|left; simpl; right; apply filter_In; rewrite C; auto].
      assert (S1: sc = true) by (unfold closes in C; apply andb_true_iff in C; tauto).
      split.
      + intros X [->|[]]. split; [exact S1|]. apply in_asg. apply has_in. exact Hk.
      + apply (v_lock _ _ _ _ _ _ _ V). simpl in OK3. unfold wrok in OK3. rewrite S1 in OK3. simpl in OK3. rewrite orb_false_r in OK3. apply negb_true_iff in OK3. exact OK3.
    - unfold when. destruct (has x (map fst k)); [|exact OP1]. intros d [<-|Hd]; [split; [split; reflexivity|auto]|]. apply filter_In in Hd as [Hd _]. auto.
    - destruct (has x (map fst k)); reflexivity.
    - destruct (has x (map fst k)) eqn:Hk; simpl; [discriminate|]. intros M. destruct (v_may _ _ _ _ _ _ _ V M) as (Q1 & Q2 & _). split; [exact M|].
      destruct B as (_ & B & C & _). rewrite Q1 in B. inversion B as [Q|]. split; [reflexivity|].
      split; [congruence|]. intros X [->|[[]|[]]]. apply nw_asg. apply has_false. exact Hk.
    - destruct (has x (map fst k)) eqn:Hk; simpl; [|auto]. intros _. right. intros X ->. apply in_asg. apply has_in. exact Hk.
    - intros M. split; [destruct (has x (map fst k)); exact M|]. left. intros X [].
    - intros T HT. exact HT.
    - intros T HT. left. exact HT.
    - intros T HT. left. exact HT.
    - auto.
    - reflexivity.
    - auto.
    - auto.
    - auto.
  Qed.

  Definition afterS (s : seq) (p : pos) : pos :=
    P (strict p) (may p || has x (swrites s)) (must p || mustS x s) (lock p || escS s && (may p || has x (swrites s))).
  Definition NodeOK (n : node) : Prop := forall q0 (F F' : path -> Prop) p ps s Ts Es Rs,
    Inv q0 F ps s Ts Es Rs -> okN x sc ps n = true -> pdomN I pd p n -> within q0 p ->
    (forall a, within p a -> F a) -> (forall a, F' a -> F a /\ ~ within p a) ->
    Inv q0 F' (after x n ps) (visN x sc pd dom cov last p n s) (cat Ts (tN p n ONorm)) (orS Es (cat Ts (escs (tN p n)))) (orS Rs (cat Ts (rets (tN p n)))).
  Definition SeqOK (t : seq) : Prop := forall q0 (F F' : path -> Prop) q k ps s Ts Es Rs,
    Inv q0 F ps s Ts Es Rs -> okS x sc ps t = true -> pdomS I pd q k t -> within q0 q ->
    (forall a k', (k <= k')%nat -> within (Kid k' :: q) a -> F a) -> (forall a, F' a -> F a /\ forall k', (k <= k')%nat -> ~ within (Kid k' :: q) a) ->
    Inv q0 F' (afterS t ps) (visS x sc pd dom cov last q k t s) (cat Ts (tS q k t ONorm)) (orS Es (cat Ts (escs (tS q k t)))) (orS Rs (cat Ts (rets (tS q k t)))).
  Definition BodyOK (t : seq) : Prop := forall q, okS x sc P_in t = true -> pdomS I pd q 0 t ->
    Inv q (fun _ => False) (afterS t P_in) (visS x sc pd dom cov last q 0 t st_empty) (tS q 0 t ONorm) (escs (tS q 0 t)) (rets (tS q 0 t)).

  Lemma inv_init q0 F a : Inv q0 F (P a false false false) st_empty (one []) none none.
  Proof.
    constructor; simpl.
    - intros _ T r [->|[[]|[]]] HE. elim (not_expo_nil _ HE).
    - intros T r [->|[]] HE. elim (not_live_nil _ HE).
    - intros T w r [->|[[]|[]]] HE. elim (not_flow_nil _ _ HE).
    - intros d [].
    - intros _. split; [reflexivity|split; [reflexivity|]]. intros T [->|[[]|[]]]. apply nw_nil.
    - discriminate.
    - intros _ T [].
  Qed.
  Lemma seq_body t : SeqOK t -> BodyOK t.
  Proof.
    intros H q OK PD. eapply inv_sub; [apply (H q (fun _ => True) (fun _ => False) q 0%nat P_in st_empty (one []) none none)| | |].
    - apply inv_init.
    - exact OK.
    - exact PD.
    - apply within_refl.
    - auto.
    - intros a [].
    - intros T HT. exists [], T. repeat split; auto.
    - intros T HT. right. exists [], T. repeat split; auto.
    - intros T HT. right. exists [], T. repeat split; auto.
  Qed.
  Lemma node_block b : NodeOK (NBlock b).
  Proof.
    intros q0 F F' p ps s Ts Es Rs V OK PD W HF HF'.
    assert (V': Inv q0 F' ps s Ts Es Rs) by (eapply inv_weak; eauto; intros a K; apply HF' in K; tauto).
    assert (NF: ~ F' p). { intros K. apply HF' in K as [_ K]. apply K. apply within_refl. }
    pose proof (step_ops q0 F' p Es Rs b 0%nat ps s Ts V' OK W NF) as V2. rewrite opsP_eq in V2.
    eapply inv_weak; [exact V2| | | | | | | |]; simpl; auto.
    - intros T (T1 & X & H1 & (st & st' & H2) & ->). inversion H2; subst. exists T1, (blkU p 0 b). repeat split; auto.
    - intros T [HT|(T1 & X & H1 & [(st & st' & H2)|(st & st' & H2)] & ->)]; [exact HT| |]; inversion H2.
    - intros T [HT|(T1 & X & H1 & (r & st & st' & H2) & ->)]; [exact HT|]; inversion H2.
    - intros M. apply orb_false_iff in M. tauto.
  Qed.
  Lemma node_seq t : SeqOK t -> NodeOK (NSeq t).
  Proof.
    intros H q0 F F' p ps s Ts Es Rs V OK PD W HF HF'.
    eapply inv_weak; [apply (H q0 F F' p 0%nat ps s Ts Es Rs V OK PD W)| | | | | | | |]; simpl; auto.
    - intros a k' _ K. apply HF. eapply within_trans; [apply within_cons|exact K].
    - intros a K. apply HF' in K as [K1 K2]. split; [exact K1|]. intros k' _ K. apply K2. eapply within_trans; [apply within_cons|exact K].
    - intros T (T1 & X & H1 & (st & st' & H2) & ->). inversion H2; subst. exists T1, X. split; [auto|split; [|auto]]. exists st, st'. auto.
    - intros T [HT|(T1 & X & H1 & H2 & ->)]; [left; exact HT|right]. exists T1, X. split; [auto|split; [|auto]].
      destruct H2 as [(st & st' & H2)|(st & st' & H2)]; inversion H2; subst; [left|right]; exists st, st'; auto.
    - intros T [HT|(T1 & X & H1 & (r & st & st' & H2) & ->)]; [left; exact HT|right]. exists T1, X. split; [auto|split; [|auto]]. inversion H2; subst. exists r, st, st'; auto.
  Qed.
  Lemma seq_nil : SeqOK SNil.
  Proof.
    intros q0 F F' q k ps s Ts Es Rs V OK PD W HF HF'.
    eapply inv_weak; [exact V| | | | | | | |]; simpl; auto.
    - intros T (T1 & X & H1 & (st & st' & H2) & ->). inversion H2; subst. rewrite app_nil_r. exact H1.
    - intros T [HT|(T1 & X & H1 & [(st & st' & H2)|(st & st' & H2)] & ->)]; [exact HT| |]; inversion H2.
    - intros T [HT|(T1 & X & H1 & (r & st & st' & H2) & ->)]; [exact HT|]; inversion H2.
    - intros a K. apply HF' in K. tauto.
    - intros M. apply orb_false_iff in M. tauto.
    - intros M. apply orb_true_iff in M as [M|M]; [exact M|discriminate].
    - intros M. apply orb_false_iff in M. tauto.
  Qed.
  Lemma afterS_cons n a r ps :
    let p2 := afterS r (wroteb (has x (map fst a)) (after x n ps)) in let p1 := afterS (SCons n a r) ps in
    may p2 = may p1 /\ must p2 = must p1 /\ (lock p1 = false -> lock p2 = false).
  Proof.
    unfold afterS, wroteb, wrote, after. destruct ps as [z m t l]. change (mustS x (SCons n a r)) with (mustN x n || has x (map fst a) || mustS x r)%bool. change (swrites (SCons n a r)) with (nwrites n ++ map fst a ++ swrites r)%list. change (escS (SCons n a r)) with (escN n || escS r)%bool. rewrite !has_app.
    generalize (has x (map fst a)) (has x (nwrites n)) (has x (swrites r)) (escN n) (escS r) (mustN x n) (mustS x r). intros b1 b2 b3 b4 b5 b6 b7.
    destruct b1, b2, b3, m, t, l, b4, b5, b6, b7; cbn; (split; [reflexivity|split; [reflexivity|intros; first [reflexivity|discriminate]]]).
  Qed.
  Lemma seq_cons n a r : NodeOK n -> SeqOK r -> SeqOK (SCons n a r).
  Proof.
    intros HN HR q0 F F' q k ps s Ts Es Rs V OK [PD1 PD2] W HF HF'. cbn [okS] in OK.
    apply andb_true_iff in OK as [OK OK5]. apply andb_true_iff in OK as [OK OK4]. apply andb_true_iff in OK as [OK OK3]. apply andb_true_iff in OK as [OK1 OK2].
    set (F1 := fun c => F c /\ ~ within (Kid k :: q) c).
    assert (WK: within q0 (Kid k :: q)) by (eapply within_trans; [exact W|apply within_cons]).
    pose proof (HN q0 F F1 (Kid k :: q) ps s Ts Es Rs V OK1 PD1 WK (fun c => HF c k (le_n k)) (fun c K => K)) as V1.
    assert (NF: ~ F1 (Kid k :: q)) by (intros [_ K]; apply K; apply within_refl).
    pose proof (step_asg _ _ _ _ _ _ _ (Kid k :: q) a V1 OK2 OK3 OK4 WK NF) as V2.
    eapply inv_weak; [apply (HR q0 F1 F' q (S k) _ _ _ _ _ V2 OK5 PD2 W)| | | | | | | |].
    - intros c k' L K. split; [apply (HF c k'); [lia|exact K]|]. intros K2. pose proof (within_kid _ _ _ _ K K2). lia.
    - intros c K. apply HF' in K as [K1 K2]. split; [split; [exact K1|apply K2; lia]|]. intros k' L. apply K2. lia.
    - intros T (T1 & X & H1 & (st & st' & H2) & ->). inversion H2; subst.
      + exists (T1 ++ T0 ++ asgU (Kid k :: q) a), T2. split; [|split; [exists st2, st'; assumption|rewrite <- !app_assoc; reflexivity]].
        exists (T1 ++ T0), (asgU (Kid k :: q) a). split; [|split; [reflexivity|rewrite <- app_assoc; reflexivity]].
        exists T1, T0. split; [exact H1|split; [exists st, st1; assumption|reflexivity]].
      + congruence.
    - intros T [HT|(T1 & X & H1 & H2 & ->)]; [left; left; exact HT|]. 
      assert (K: exists o, (o = OBrk \/ o = OCont) /\ exists st st', runsU I q k (SCons n a r) st o st' X).
      { destruct H2 as [(st & st' & H2)|(st & st' & H2)]; [exists OBrk|exists OCont]; split; eauto. }
      clear H2. destruct K as (o & Ho & st & st' & H2). inversion H2; subst.
      + right. exists (T1 ++ T0 ++ asgU (Kid k :: q) a), T2. split; [|split; [|rewrite <- !app_assoc; reflexivity]].
        * exists (T1 ++ T0), (asgU (Kid k :: q) a). split; [|split; [reflexivity|rewrite <- app_assoc; reflexivity]].
          exists T1, T0. split; [exact H1|split; [exists st, st1; assumption|reflexivity]].
        * destruct Ho as [->| ->]; [left|right]; exists st2, st'; assumption.
      + left. right. exists T1, X. split; [exact H1|split; [|reflexivity]]. destruct Ho as [->| ->]; [left|right]; exists st, st'; assumption.
    - intros T [HT|(T1 & X & H1 & (o & st & st' & H2) & ->)]; [left; left; exact HT|]. inversion H2; subst.
      + right. exists (T1 ++ T0 ++ asgU (Kid k :: q) a), T2. split; [|split; [|rewrite <- !app_assoc; reflexivity]].
        * exists (T1 ++ T0), (asgU (Kid k :: q) a). split; [|split; [reflexivity|rewrite <- app_assoc; reflexivity]].
          exists T1, T0. split; [exact H1|split; [exists st, st1; assumption|reflexivity]].
        * exists o, st2, st'; assumption.
      + left. right. exists T1, X. split; [exact H1|split; [|reflexivity]]. exists o, st, st'; assumption.
    - auto.
    - destruct (has x (map fst a)); reflexivity.
    - intros M. rewrite <- M. apply (afterS_cons n a r ps).
    - intros M. rewrite <- M. apply (afterS_cons n a r ps).
    - apply (afterS_cons n a r ps).
  Qed.
  Lemma node_jump n : n = NBreak \/ n = NContinue -> NodeOK n.
  Proof.
    intros Hn q0 F F' p ps s Ts Es Rs V OK PD W HF HF'.
    assert (SN: forall o X, tN p n o X -> X = [] /\ (o = OBrk \/ o = OCont)).
    { intros o X (st & st' & H2). destruct Hn as [->| ->]; inversion H2; subst; auto. }
    assert (EN: escN n = true) by (destruct Hn as [->| ->]; reflexivity).
    assert (MN: nwrites n = []) by (destruct Hn as [->| ->]; reflexivity).
    assert (VN: visN x sc pd dom cov last p n s = s) by (destruct Hn as [->| ->]; reflexivity).
    rewrite VN.
    eapply inv_weak; [eapply (merge q0 F F' ps (after x n ps) s s s [] Ts Es Rs none (one []) none V (batch_nil s))| | | | | | | |].
    - apply incl_refl.
    - apply incl_refl.
    - intros X r [[]|[->|[]]] HE. elim (not_expo_nil _ HE).
    - intros X r [[]| ->] HE. elim (not_live_nil _ HE).
    - intros X w r [[]|[->|[]]] HE. elim (not_flow_nil _ _ HE).
    - auto.
    - intros d Hd. destruct (v_opn _ _ _ _ _ _ _ V d Hd) as (A & B & C). split; [exact A|split; [exact B|]]. intros K. apply C. apply HF' in K. tauto.
    - reflexivity.
    - unfold after. rewrite MN. simpl. rewrite orb_false_r. intros M. destruct (v_may _ _ _ _ _ _ _ V M) as (Q1 & Q2 & _). split; [exact M|split; [exact Q1|split; [exact Q2|]]].
      intros X [[]|[->|[]]]. apply nw_nil.
    - intros _. right. intros X [].
    - unfold after. rewrite MN, EN. simpl. rewrite orb_false_r. intros M. apply orb_false_iff in M as [M1 M2]. split; [exact M1|]. right. split; [exact M2|]. intros X ->. apply nw_nil.
    - intros T (T1 & X & H1 & H2 & ->). destruct (SN _ _ H2) as (_ & [K|K]); discriminate.
    - intros T [HT|(T1 & X & H1 & H2 & ->)]; [left; exact HT|right]. exists T1, []. split; [exact H1|split; [reflexivity|]]. destruct H2 as [H2|H2]; destruct (SN _ _ H2) as (-> & _); reflexivity.
    - intros T [HT|(T1 & X & H1 & (r & H2) & ->)]; [left; exact HT|]. destruct (SN _ _ H2) as (_ & [K|K]); discriminate.
    - auto.
    - reflexivity.
    - auto.
    - auto.
    - auto.
  Qed.
  Lemma node_ret y : NodeOK (NReturn y).
  Proof.
    intros q0 F F' p ps s Ts Es Rs V OK PD W HF HF'. cbn [okN] in OK. apply andb_true_iff in OK as [OK1 OK2]. apply negb_true_iff in OK2.
    set (ru := U p URet false x). set (l0 := if String.eqb y x then [ru] else []). set (s1 := when (String.eqb y x) (rd1 last false ru) s).
    assert (B: batch l0 s s1). { unfold l0, s1, when. destruct (String.eqb y x); [apply batch_rd1|apply batch_nil]. }
    cbn [visN]. fold ru s1.
    assert (NW: nw [U p URet false y]) by (apply nw_cons; [intros [Q _]; discriminate|apply nw_nil]).
    eapply inv_weak; [eapply (merge q0 F F' ps (after x (NReturn y) ps) s s1 _ l0 Ts Es Rs none none (one [U p URet false y]) V B)| | | | | | | |].
    - apply incl_refl.
    - apply incl_refl.
    - intros X r [[]|[[]| ->]] HE. apply expo_in in HE as [[<-|[]] [_ Q]]. simpl in Q. unfold l0. rewrite Q in *. rewrite String.eqb_refl in *. split; [left; reflexivity|apply (impb_true _ _ OK1 eq_refl)].
    - intros X r [[]|[]].
    - intros X w r [[]|[[]| ->]] HE. apply flow_live in HE as [HE _]. elim (HE NW).
    - intros d Hd. right. split; [intros X [[]|[]]|]. apply (v_lock _ _ _ _ _ _ _ V OK2).
    - intros d [].
    - reflexivity.
    - simpl. rewrite orb_false_r. intros M. destruct (v_may _ _ _ _ _ _ _ V M) as (Q1 & Q2 & _). destruct B as (_ & B & C & _). rewrite Q1 in B. inversion B as [Q|].
      split; [exact M|split; [reflexivity|split; [simpl; congruence|]]].
      intros X [[]|[[]| ->]]. exact NW.
    - intros _. right. intros X [].
    - simpl. rewrite orb_false_r. intros M. split; [exact M|]. left. intros X [].
    - intros T (T1 & X & H1 & (st & st' & H2) & ->). inversion H2.
    - intros T [HT|(T1 & X & H1 & [(st & st' & H2)|(st & st' & H2)] & ->)]; [left; exact HT| |]; inversion H2.
    - intros T [HT|(T1 & X & H1 & (r & st & st' & H2) & ->)]; [left; exact HT|right]. exists T1, X. split; [exact H1|split; [|reflexivity]]. inversion H2. reflexivity.
    - auto.
    - reflexivity.
    - auto.
    - auto.
    - auto.
  Qed.

  (* ------------------------------------------------------------ *)
  (** if-else *)
  Fixpoint nthB (b : brs) (j : nat) : option seq :=
    match b, j with BNil, _ => None | BCons _ s _, O => Some s | BCons _ _ r, S j' => nthB r j' end.
  Notation vS := (visS x sc pd dom cov last).
  Notation vB := (visB x sc pd dom cov last).
  Notation vN := (visN x sc pd dom cov last).
  Lemma rdU_app p e a b : rdU p e (a ++ b) = (rdU p e a ++ rdU p e b)%list.
  Proof. apply map_app. Qed.
  Lemma runb_split b : forall p k st o st' T, runbU I p k b st o st' T ->
    exists l, incl l (concat (map catoms (bconds b))) /\
    ((exists j s X, T = rdU p UCond l ++ X /\ nthB b j = Some s /\ runsU I (Br (k + j) :: p) 0 s st o st' X) \/
     (T = rdU p UCond l /\ o = ONorm /\ forall c, In c (bconds b) -> cev (env_of st) c = Some false)).
  Proof.
    induction b as [|c s b IH]; intros p k st o st' T H; inversion H; subst; simpl.
    - exists []. split; [intros y []|]. right. split; [reflexivity|split; [reflexivity|intros c []]].
    - exists (catoms c). split; [apply incl_appl; apply incl_refl|]. left. exists 0%nat, s, T0. rewrite Nat.add_0_r. auto.
    - match goal with K : runbU _ _ _ _ _ _ _ _ |- _ => destruct (IH _ _ _ _ _ _ K) as (l & L & [(j & s' & X & -> & N & R)|(-> & -> & N)]) end.
      + exists (catoms c ++ l). split; [apply incl_app; [apply incl_appl; apply incl_refl|apply incl_appr; exact L]|]. left. exists (S j), s', X.
        rewrite rdU_app, <- app_assoc. rewrite <- Nat.add_succ_comm. auto.
      + exists (catoms c ++ l). split; [apply incl_app; [apply incl_appl; apply incl_refl|apply incl_appr; exact L]|]. right. rewrite rdU_app.
        split; [reflexivity|split; [reflexivity|]]. intros c' [<-|K]; auto.
  Qed.
  Lemma nthB_facts b : forall j s, nthB b j = Some s ->
    (In x (sreads s) -> In x (breads b)) /\ (In x (swrites s) -> In x (bwrites b)) /\ (escB b = false -> escS s = false) /\
    (okB x sc b = true -> okS x sc P_in s = true) /\ forall p k, (pdomB I pd p k b -> pdomS I pd (Br (k + j) :: p) 0 s) /\ In (vS (Br (k + j) :: p) 0%nat s st_empty) (vB p k b).
  Proof.
    induction b as [|c t b IH]; intros j s H; simpl in H; [discriminate|]. destruct j as [|j].
    - injection H as <-. cbn [breads bwrites escB okB pdomB visB]. rewrite !in_app_iff. split; [auto|]. split; [auto|]. split; [intros Q; apply orb_false_iff in Q; tauto|].
      split; [intros Q; apply andb_true_iff in Q; tauto|]. intros p k. rewrite Nat.add_0_r. split; [tauto|left; reflexivity].
    - destruct (IH j s H) as (A & B & C & E & G). cbn [breads bwrites escB okB pdomB visB]. rewrite !in_app_iff. split; [auto|]. split; [auto|].
      split; [intros Q; apply orb_false_iff in Q; tauto|].
      split; [intros Q; apply andb_true_iff in Q; tauto|]. intros p k. rewrite <- Nat.add_succ_comm. destruct (G p (S k)) as [G1 G2]. split; [tauto|right; exact G2].
  Qed.
  Lemma in_visB b : forall p k st, In st (vB p k b) -> exists j s, nthB b j = Some s /\ st = vS (Br (k + j) :: p) 0%nat s st_empty.
  Proof.
    induction b as [|c t b IH]; intros p k st H; cbn [visB] in H; [destruct H|]. destruct H as [<-|H].
    - exists 0%nat, t. rewrite Nat.add_0_r. auto.
    - destruct (IH _ _ _ H) as (j & s & A & ->). exists (S j), s. rewrite <- Nat.add_succ_comm. auto.
  Qed.
  Lemma someB_all b : (forall j s, nthB b j = Some s -> has x (swrites s) = true) -> someB x b = true.
  Proof.
    induction b as [|c t b IH]; intros H; cbn [someB]; [reflexivity|]. apply andb_true_iff. split; [apply (H 0%nat); reflexivity|]. apply IH. intros j s Q. apply (H (S j)). exact Q.
  Qed.
  Lemma cand_all l : cand l = true -> forall st, In st l -> opn st <> [] \/ cls st <> [].
  Proof.
    destruct l as [|s0 r]; simpl; [discriminate|]. intros H. apply andb_true_iff in H as [H1 H2]. intros st [<-|Hst].
    - apply orb_true_iff in H1 as [H1|H1]; [left|right]; intros Q; rewrite Q in H1; discriminate.
    - rewrite forallb_forall in H2. specialize (H2 st Hst). left. intros Q. rewrite Q in H2. discriminate.
  Qed.
  Lemma in_cmap {A B} (f : A -> list B) l a y : In a l -> In y (f a) -> In y (concat (map f l)).
  Proof. intros H K. apply in_concat. exists (f a). split; [apply in_map; exact H|exact K]. Qed.
  Lemma in_cmap_inv {A B} (f : A -> list B) l y : In y (concat (map f l)) -> exists a, In a l /\ In y (f a).
  Proof. intros H. apply in_concat in H as (m & H & K). apply in_map_iff in H as (a & <- & H). eauto. Qed.
  Lemma in_dec_x l : In x l \/ ~ In x l.
  Proof. destruct (in_dec string_dec x l); auto. Qed.

  Lemma node_if bs : (forall j s, nthB bs j = Some s -> BodyOK s) -> NodeOK (NIf bs).
  Proof.
    intros HB q0 F F' p ps s Ts Es Rs V OK PD W HF HF'. cbn [okN] in OK. apply andb_true_iff in OK as [OK OK3]. apply andb_true_iff in OK as [OK1 OK2].
    cbn [pdomN] in PD.
    assert (BI: forall j t, nthB bs j = Some t -> Inv (Br j :: p) (fun _ => False) (afterS t P_in) (vS (Br j :: p) 0%nat t st_empty)
              (tS (Br j :: p) 0 t ONorm) (escs (tS (Br j :: p) 0 t)) (rets (tS (Br j :: p) 0 t)) /\ In (vS (Br j :: p) 0%nat t st_empty) (vB p 0 bs)).
    { intros j t Hj. destruct (nthB_facts bs j t Hj) as (_ & _ & _ & A & B). destruct (B p 0%nat) as [B1 B2]. split; [apply (HB j t Hj); [auto|exact (B1 PD)]|exact B2]. }
    assert (BI2: forall st, In st (vB p 0 bs) -> exists j t, nthB bs j = Some t /\ st = vS (Br j :: p) 0%nat t st_empty) by (intros st Hst; exact (in_visB _ _ _ _ Hst)).
    set (ru := U p UCond false x). set (cs := concat (map catoms (bconds bs))) in *. set (L := vB p 0 bs) in *.
    set (sa := when (has x cs) (rd1 last true ru) s).
    set (s1 := rds1 last true (concat (map und L)) sa).
    set (l0 := if has x cs then [ru] else []).
    assert (B: batch (l0 ++ concat (map und L)) s s1).
    { eapply batch_trans; [|apply batch_rds1]. unfold l0, sa, when. destruct (has x cs); [apply batch_rd1|apply batch_nil]. }
    assert (OP1: forall d, In d (opn s1) -> wx (d_u d) /\ within q0 (u_at (d_u d)) /\ ~ F' (u_at (d_u d))).
    { intros d Hd. destruct B as (_ & B & _). destruct (ext_bwd _ _ _ _ B Hd) as (d0 & Hd0 & ->). destruct (v_opn _ _ _ _ _ _ _ V d0 Hd0) as (X1 & X2 & X3).
      split; [exact X1|split; [exact X2|]]. intros K. apply X3. apply HF' in K. tauto. }
    assert (NF: ~ F' p). { intros K. apply HF' in K as [_ K]. apply K. apply within_refl. }
    assert (OPb: forall d, In d (concat (map opn L)) -> wx (d_u d) /\ within q0 (u_at (d_u d)) /\ ~ F' (u_at (d_u d))).
    { intros d Hd. apply in_cmap_inv in Hd as (st & Hst & Hd). destruct (BI2 st Hst) as (j & t & Hj & ->). destruct (BI j t Hj) as [Vj _].
      destruct (v_opn _ _ _ _ _ _ _ Vj d Hd) as (X1 & X2 & _). assert (X3: within p (u_at (d_u d))) by (eapply within_trans; [apply within_cons|exact X2]).
      split; [exact X1|split; [eapply within_trans; eassumption|]]. intros K. apply HF' in K. tauto. }
    change (vN p (NIf bs) s) with (merge_if x last p (complete bs) L sa).
    (* decomposition of a trace *)
    assert (SP: forall o X, tN p (NIf bs) o X -> exists l, incl l cs /\
       ((exists j t Y, X = rdU p UCond l ++ Y /\ nthB bs j = Some t /\ tS (Br j :: p) 0 t o Y) \/ (X = rdU p UCond l /\ o = ONorm /\ complete bs = false))).
    { intros o X (st & st' & H). inversion H; subst. match goal with K : runbU _ _ _ _ _ _ _ _ |- _ => destruct (runb_split _ _ _ _ _ _ _ K) as (l & Hl & [(j & t & Y & -> & Hj & R)|(-> & -> & N)]) end.
      - exists l. split; [exact Hl|]. left. exists j, t, Y. split; [reflexivity|split; [exact Hj|]]. exists st, st'. exact R.
      - exists l. split; [exact Hl|]. right. split; [reflexivity|split; [reflexivity|]]. destruct (complete bs) eqn:C; [|reflexivity]. elim (complete_taken _ _ C N). }
    set (X0 := fun o => tN p (NIf bs) o).
    assert (ANY: forall X, tN p (NIf bs) ONorm X \/ escs (tN p (NIf bs)) X \/ rets (tN p (NIf bs)) X -> exists o, tN p (NIf bs) o X).
    { intros X [H|[[H|H]|[r H]]]; eauto. }
    assert (TJ: forall j t o Y, nthB bs j = Some t -> tS (Br j :: p) 0 t o Y -> tS (Br j :: p) 0 t ONorm Y \/ escs (tS (Br j :: p) 0 t) Y \/ rets (tS (Br j :: p) 0 t) Y).
    { intros j t o Y _ H. destruct o as [| | |r]; [left; exact H|right; left; left; exact H|right; left; right; exact H|right; right; exists r; exact H]. }
    (* everything open or closed in a branch or outside is open or closed afterwards *)
    set (s2 := merge_if x last p (complete bs) L sa).
    assert (I1: incl (opn s1 ++ cls s1) (opn s2 ++ cls s2)).
    { unfold s2, merge_if. fold s1. intros d Hd. apply in_app_or in Hd. destruct (complete bs); [destruct (cand L)|]; simpl; rewrite !in_app_iff; tauto. }
    assert (I2: incl (concat (map opn L)) (opn s2)).
    { unfold s2, merge_if. fold s1. intros d Hd. destruct (complete bs); [destruct (cand L)|]; simpl; rewrite ?in_app_iff; tauto. }
    assert (I3: incl (concat (map cls L)) (cls s2)).
    { unfold s2, merge_if. fold s1. intros d Hd. destruct (complete bs); [destruct (cand L)|]; simpl; rewrite ?in_app_iff; tauto. }
    assert (MB: has x (bwrites bs) = false -> concat (map opn L) = [] /\ concat (map cls L) = []).
    { intros M. apply has_false in M.
      assert (K: forall st, In st L -> opn st = [] /\ cls st = []).
      { intros st Hst. destruct (BI2 st Hst) as (j & t & Hj & ->). destruct (BI j t Hj) as [Vj _]. destruct (v_may _ _ _ _ _ _ _ Vj) as (A1 & A2 & _); [|auto].
        simpl. apply has_false. intros K. apply M. apply (nthB_facts bs j t Hj). exact K. }
      split; [destruct (concat (map opn L)) as [|d m] eqn:E; [reflexivity|]|destruct (concat (map cls L)) as [|d m] eqn:E; [reflexivity|]].
      - assert (Hd: In d (concat (map opn L))) by (rewrite E; left; reflexivity). apply in_cmap_inv in Hd as (st & Hst & Hd). destruct (K st Hst) as [K1 K2]. rewrite K1 in Hd. destruct Hd.
      - assert (Hd: In d (concat (map cls L))) by (rewrite E; left; reflexivity). apply in_cmap_inv in Hd as (st & Hst & Hd). destruct (K st Hst) as [K1 K2]. rewrite K2 in Hd. destruct Hd. }
    apply (merge q0 F F' ps (after x (NIf bs) ps) s s1 s2 (l0 ++ concat (map und L)) Ts Es Rs _ _ _ V B).
    - unfold s2, merge_if. fold s1. destruct (complete bs); [destruct (cand L)|]; apply incl_refl.
    - exact I1.
    - intros X r HX HE. apply ANY in HX as (o & HX). destruct (SP o X HX) as (l & Hl & [(j & t & Y & -> & Hj & R)|(-> & _)]).
      + apply expo_app in HE as [HE|[_ HE]].
        * apply rdU_expo in HE as [-> HE]. apply has_in in HE. apply Hl in HE. apply has_in in HE. split.
          -- apply in_or_app. left. unfold l0. rewrite HE. left. reflexivity.
          -- apply (impb_true _ _ OK1). rewrite has_app, HE. reflexivity.
        * destruct (BI j t Hj) as [Vj IL]. split.
          -- apply in_or_app. right. eapply in_cmap; [exact IL|]. apply (v_exp _ _ _ _ _ _ _ Vj eq_refl Y r); [eapply TJ; eassumption|exact HE].
          -- apply (impb_true _ _ OK1). rewrite has_app. apply orb_true_iff. right. apply has_in.
             destruct (in_dec_x (sreads t)) as [K|K]; [apply (nthB_facts bs j t Hj); exact K|]. destruct R as (st & st' & R).
             apply expo_in in HE as [HE RR]. elim (proj1 (proj2 static_nr) _ _ _ _ _ _ _ R K r HE RR).
      + apply rdU_expo in HE as [-> HE]. apply has_in in HE. apply Hl in HE. apply has_in in HE. split.
        * apply in_or_app. left. unfold l0. rewrite HE. left. reflexivity.
        * apply (impb_true _ _ OK1). rewrite has_app, HE. reflexivity.
    - intros X w HX HL. assert (exists o, (o = ONorm \/ o = OBrk \/ o = OCont) /\ tN p (NIf bs) o X) as (o & Ho & HX2) by (destruct HX as [HX|[HX|HX]]; eauto).
      destruct (SP o X HX2) as (l & Hl & [(j & t & Y & -> & Hj & R)|(-> & _)]); [|elim (rdU_nolive _ _ _ _ HL)].
      apply live_app in HL as [HL|[HL _]]; [|elim (rdU_nolive _ _ _ _ HL)]. destruct (BI j t Hj) as [Vj IL].
      destruct (v_live _ _ _ _ _ _ _ Vj Y w) as (d & Hd & Q); [|exact HL|].
      + destruct Ho as [->|[->| ->]]; [left; exact R|right; left; exact R|right; right; exact R].
      + exists d. split; [apply I2; eapply in_cmap; [exact IL|exact Hd]|exact Q].
    - intros X w r HX HFl. apply ANY in HX as (o & HX). destruct (SP o X HX) as (l & Hl & [(j & t & Y & -> & Hj & R)|(-> & _)]); [|elim (rdU_noflow _ _ _ _ _ HFl)].
      apply flow_app in HFl as [HFl|[HFl|[HL _]]]; [elim (rdU_noflow _ _ _ _ _ HFl)| |elim (rdU_nolive _ _ _ _ HL)].
      destruct (BI j t Hj) as [Vj IL]. destruct (v_flow _ _ _ _ _ _ _ Vj Y w r) as (d & Hd & Q); [eapply TJ; eassumption|exact HFl|].
      exists d. split; [|exact Q]. apply in_or_app. apply in_app_or in Hd as [Hd|Hd]; [left; apply I2; eapply in_cmap; eassumption|right; apply I3; eapply in_cmap; eassumption].
    - intros d Hd. destruct (complete bs) eqn:C; [destruct (cand L) eqn:CL|].
      + right. assert (M: may ps = true).
        { destruct (may ps) eqn:M; [reflexivity|]. destruct (v_may _ _ _ _ _ _ _ V M) as (Q & _). assert (E: opn s1 = []) by (destruct B as (_ & B & _); rewrite Q in B; inversion B; reflexivity). rewrite E in Hd. destruct Hd. }
        assert (SB: someB x bs = true).
        { apply someB_all. intros j t Hj. destruct (BI j t Hj) as [Vj IL]. destruct (has x (swrites t)) eqn:E; [reflexivity|].
          destruct (v_may _ _ _ _ _ _ _ Vj) as (A1 & A2 & _); [simpl; exact E|]. destruct (cand_all _ CL _ IL); congruence. }
        rewrite M, SB in OK3. simpl in OK3. apply andb_true_iff in OK3 as [OK3 K4]. apply andb_true_iff in OK3 as [OK3 K3]. apply andb_true_iff in OK3 as [K1 K2].
        apply negb_true_iff in K3. apply negb_true_iff in K4. split; [|apply (v_lock _ _ _ _ _ _ _ V K4)].
        intros X [(st & st' & HX)|HX].
        * split; [exact K1|]. apply (proj1 static_must _ _ _ _ _ _ HX); [|reflexivity]. change (complete bs && mustB x bs = true). rewrite C, K2. reflexivity.
        * destruct HX as [(st & st' & HX)|(st & st' & HX)]; destruct (proj1 static_esc _ _ _ _ _ _ HX K3); congruence.
      + left. unfold s2, merge_if. fold s1. simpl. rewrite CL. simpl. apply in_or_app. auto.
      + left. unfold s2, merge_if. fold s1. simpl. rewrite !in_app_iff. auto.
    - intros d Hd. unfold s2, merge_if in Hd. fold s1 in Hd.
      destruct (complete bs); [destruct (cand L)|]; simpl in Hd; rewrite ?in_app_iff in Hd.
      + apply OPb. exact Hd.
      + destruct Hd as [Hd|Hd]; auto.
      + destruct Hd as [Hd|[Hd|Hd]]; auto. apply in_map_iff in Hd as (e & <- & _). split; [split; reflexivity|]. simpl. auto.
    - reflexivity.
    - simpl. intros M. apply orb_false_iff in M as [M1 M2]. split; [exact M1|]. destruct (v_may _ _ _ _ _ _ _ V M1) as (Q1 & Q2 & _).
      destruct (MB M2) as (E1 & E2). assert (E3: opn s1 = []) by (destruct B as (_ & B & _); rewrite Q1 in B; inversion B; reflexivity).
      assert (E4: cls s1 = []) by (destruct B as (_ & _ & B & _); congruence).
      split; [|split].
      + unfold s2, merge_if. fold s1. rewrite E1, E3. destruct (complete bs); [destruct (cand L)|]; reflexivity.
      + unfold s2, merge_if. fold s1. rewrite E1, E2, E3, E4. destruct (complete bs); [destruct (cand L)|]; reflexivity.
      + intros X HX. apply ANY in HX as (o & st & st' & HX). apply (proj1 static_nw _ _ _ _ _ _ HX). simpl. apply has_false. exact M2.
    - change (must ps || (complete bs && mustB x bs) = true -> must ps = true \/ (forall X, tN p (NIf bs) ONorm X -> ~ nw X)). intros M. apply orb_true_iff in M as [M|M]; [left; exact M|right].
      intros X (st & st' & HX). apply (proj1 static_must _ _ _ _ _ _ HX); [exact M|reflexivity].
    - change (lock ps || escB bs && (may ps || has x (bwrites bs)) = false -> lock ps = false /\ ((forall X, ~ escs (tN p (NIf bs)) X) \/ may ps = false /\ (forall X, escs (tN p (NIf bs)) X -> nw X))).
      intros M. apply orb_false_iff in M as [M1 M2]. split; [exact M1|]. apply andb_false_iff in M2 as [M2|M2].
      + left. intros X [(st & st' & HX)|(st & st' & HX)]; destruct (proj1 static_esc _ _ _ _ _ _ HX M2); congruence.
      + right. apply orb_false_iff in M2 as [M2 M3]. split; [exact M2|]. apply has_false in M3.
        intros X [(st & st' & HX)|(st & st' & HX)]; exact (proj1 static_nw _ _ _ _ _ _ HX M3).
  Qed.

  (* ------------------------------------------------------------ *)
  (** while *)
  Notation BInv p t := (Inv (Body :: p) (fun _ => False) (afterS t P_in) (vS (Body :: p) 0%nat t st_empty)
    (tS (Body :: p) 0 t ONorm) (escs (tS (Body :: p) 0 t)) (rets (tS (Body :: p) 0 t))).
  Lemma out_any q t o B : tS q 0 t o B -> tS q 0 t ONorm B \/ escs (tS q 0 t) B \/ rets (tS q 0 t) B.
  Proof. intros H. destruct o as [| | |r]; [left; exact H|right; left; left; exact H|right; left; right; exact H|right; right; exists r; exact H]. Qed.
  Lemma in_carry b d : In d (opn b) -> exists d1, In d1 (carry b) /\ d_u d1 = d_u d /\ incl (d_r d) (d_r d1) /\ incl (und b) (d_r d1).
  Proof.
    intros H. exists (D (d_u d) (und b ++ d_r d)). split; [apply in_map_iff; exists d; auto|]. split; [reflexivity|]. split; [apply incl_appr|apply incl_appl]; apply incl_refl.
  Qed.
  Lemma while_facts p t st o st' X : runwU I p t st o st' X -> BInv p t -> let b := vS (Body :: p) 0%nat t st_empty in
    (forall r, expo X r -> In r (und b)) /\ (forall w, o = ONorm -> live X w -> exists d, In d (opn b) /\ d_u d = w) /\
    (forall w r, flow X w r -> exists d, In d (carry b ++ cls b) /\ d_u d = w /\ In r (d_r d)).
  Proof.
    intros H V. induction H; cbn zeta.
    - destruct (IHrunwU V) as (E & L & Fl). assert (K: tS (Body :: p) 0 s o1 T1) by (exists st, st1; exact H).
      assert (LV: forall w, live T1 w -> exists d, In d (opn (vS (Body :: p) 0%nat s st_empty)) /\ d_u d = w).
      { intros w. apply (v_live _ _ _ _ _ _ _ V). destruct H0 as [->| ->]; [left|right; right]; exact K. }
      split; [|split].
      + intros r HE. apply expo_app in HE as [HE|[_ HE]]; [|auto]. apply (v_exp _ _ _ _ _ _ _ V eq_refl T1); [eapply out_any; exact K|exact HE].
      + intros w Ho HL. apply live_app in HL as [HL|[HL _]]; auto.
      + intros w r HF. apply flow_app in HF as [HF|[HF|[HL HE]]]; [|auto|].
        * destruct (v_flow _ _ _ _ _ _ _ V T1 w r) as (d & Hd & Q & R); [eapply out_any; exact K|exact HF|]. apply in_app_or in Hd as [Hd|Hd].
          -- destruct (in_carry _ _ Hd) as (d1 & Hd1 & Q1 & I1 & _). exists d1. split; [apply in_or_app; auto|]. split; [congruence|auto].
          -- exists d. split; [apply in_or_app; auto|auto].
        * destruct (LV w HL) as (d & Hd & Q). destruct (in_carry _ _ Hd) as (d1 & Hd1 & Q1 & _ & I1). exists d1. split; [apply in_or_app; auto|]. split; [congruence|auto].
    - assert (K: tS (Body :: p) 0 s OBrk T) by (exists st, st'; exact H). split; [|split].
      + intros r HE. apply (v_exp _ _ _ _ _ _ _ V eq_refl T); [eapply out_any; exact K|exact HE].
      + intros w _ HL. apply (v_live _ _ _ _ _ _ _ V T); [right; left; exact K|exact HL].
      + intros w r HF. destruct (v_flow _ _ _ _ _ _ _ V T w r) as (d & Hd & Q & R); [eapply out_any; exact K|exact HF|]. apply in_app_or in Hd as [Hd|Hd].
        * destruct (in_carry _ _ Hd) as (d1 & Hd1 & Q1 & I1 & _). exists d1. split; [apply in_or_app; auto|]. split; [congruence|auto].
        * exists d. split; [apply in_or_app; auto|auto].
    - assert (K: tS (Body :: p) 0 s (ORet r) T) by (exists st, st'; exact H). split; [|split].
      + intros r' HE. apply (v_exp _ _ _ _ _ _ _ V eq_refl T); [eapply out_any; exact K|exact HE].
      + intros w Q. discriminate.
      + intros w r' HF. destruct (v_flow _ _ _ _ _ _ _ V T w r') as (d & Hd & Q & R); [eapply out_any; exact K|exact HF|]. apply in_app_or in Hd as [Hd|Hd].
        * destruct (in_carry _ _ Hd) as (d1 & Hd1 & Q1 & I1 & _). exists d1. split; [apply in_or_app; auto|]. split; [congruence|auto].
        * exists d. split; [apply in_or_app; auto|auto].
  Qed.
  Lemma node_while t : BodyOK t -> NodeOK (NWhile t).
  Proof.
    intros HB q0 F F' p ps s Ts Es Rs V OK PD W HF HF'. cbn [okN] in OK. apply andb_true_iff in OK as [OK1 OK2]. cbn [pdomN] in PD.
    pose proof (HB (Body :: p) OK2 PD) as VB.
    set (b := vS (Body :: p) 0%nat t st_empty) in *. set (s1 := rds1 last false (und b) s).
    pose proof (batch_rds1 false (und b) s) as B. fold s1 in B.
    change (vN p (NWhile t) s) with (merge_while last b s). set (s2 := merge_while last b s).
    assert (OP1: forall d, In d (opn s1) -> wx (d_u d) /\ within q0 (u_at (d_u d)) /\ ~ F' (u_at (d_u d))).
    { intros d Hd. destruct B as (_ & B & _). destruct (ext_bwd _ _ _ _ B Hd) as (d0 & Hd0 & ->). destruct (v_opn _ _ _ _ _ _ _ V d0 Hd0) as (X1 & X2 & X3).
      split; [exact X1|split; [exact X2|]]. intros K. apply X3. apply HF' in K. tauto. }
    assert (SP: forall o X, tN p (NWhile t) o X -> exists st st', runwU I p t st o st' X) by (intros o X (st & st' & H); inversion H; subst; eauto).
    assert (ANY: forall X, tN p (NWhile t) ONorm X \/ escs (tN p (NWhile t)) X \/ rets (tN p (NWhile t)) X -> exists o, tN p (NWhile t) o X).
    { intros X [H|[[H|H]|[r H]]]; eauto. }
    assert (NE: forall X, ~ escs (tN p (NWhile t)) X).
    { intros X [(st & st' & HX)|(st & st' & HX)]; destruct (proj1 static_esc _ _ _ _ _ _ HX eq_refl); congruence. }
    apply (merge q0 F F' ps (after x (NWhile t) ps) s s1 s2 (und b) Ts Es Rs _ _ _ V B).
    - apply incl_refl.
    - intros d Hd. apply in_app_or in Hd. unfold s2, merge_while. fold s1. simpl. rewrite !in_app_iff. tauto.
    - intros X r HX HE. apply ANY in HX as (o & HX). destruct (SP o X HX) as (st & st' & R). split; [apply (while_facts _ _ _ _ _ _ R VB); exact HE|].
      apply (impb_true _ _ OK1). apply has_in. destruct (in_dec_x (sreads t)) as [K|K]; [exact K|].
      apply expo_in in HE as [HE RR]. elim (proj1 (proj2 (proj2 (proj2 static_nr))) _ _ _ _ _ _ R K r HE RR).
    - intros X w [HX|HX] HL; [|elim (NE X HX)]. destruct (SP ONorm X HX) as (st & st' & R).
      destruct (while_facts _ _ _ _ _ _ R VB) as (_ & L & _). destruct (L w eq_refl HL) as (d & Hd & Q). destruct (in_carry _ _ Hd) as (d1 & Hd1 & Q1 & _).
      exists d1. split; [simpl; apply in_or_app; auto|congruence].
    - intros X w r HX HFl. apply ANY in HX as (o & HX). destruct (SP o X HX) as (st & st' & R). destruct (while_facts _ _ _ _ _ _ R VB) as (_ & _ & Fl).
      destruct (Fl w r HFl) as (d & Hd & Q). exists d. split; [|exact Q]. apply in_app_or in Hd. unfold s2, merge_while. simpl. rewrite !in_app_iff. fold b in Hd. tauto.
    - intros d Hd. left. unfold s2, merge_while. fold s1. simpl. apply in_or_app. auto.
    - intros d Hd. unfold s2, merge_while in Hd. fold s1 in Hd. simpl in Hd. apply in_app_or in Hd as [Hd|Hd]; [|auto].
      apply in_map_iff in Hd as (e & <- & Hd). simpl. destruct (v_opn _ _ _ _ _ _ _ VB e Hd) as (X1 & X2 & _). assert (X3: within p (u_at (d_u e))) by (eapply within_trans; [apply within_cons|exact X2]).
      split; [exact X1|split; [eapply within_trans; eassumption|]]. intros K. apply HF' in K. tauto.
    - reflexivity.
    - simpl. intros M. apply orb_false_iff in M as [M1 M2]. split; [exact M1|]. destruct (v_may _ _ _ _ _ _ _ V M1) as (Q1 & Q2 & _).
      destruct (v_may _ _ _ _ _ _ _ VB) as (E1 & E2 & _); [simpl; exact M2|].
      assert (E3: opn s1 = []) by (destruct B as (_ & B & _); rewrite Q1 in B; inversion B; reflexivity).
      assert (E4: cls s1 = []) by (destruct B as (_ & _ & B & _); congruence).
      unfold carry. rewrite E1, E2. fold s1. rewrite E3, E4. split; [reflexivity|split; [reflexivity|]].
      intros X HX. apply ANY in HX as (o & st & st' & HX). apply (proj1 static_nw _ _ _ _ _ _ HX). simpl. apply has_false. exact M2.
    - simpl. rewrite orb_false_r. auto.
    - simpl. rewrite orb_false_r. intros M. split; [exact M|left; exact NE].
  Qed.

  (* ------------------------------------------------------------ *)
  (** loops *)
  Section Loop.
    Variables (p : path) (i : string) (c : cond) (u : expr) (t : seq).
    Hypothesis VB : BInv p t.
    Let b1 := vS (Body :: p) 0%nat t st_empty.
    Let ru := U p UUpd false x.
    Let uw := U p UUpd true x.
    Let rt := U p UTest false x.
    Let b2 := when (has x (atoms u)) (rd1 last true ru) b1.
    Hypothesis C1 : has x (catoms c) = true -> i = x \/ has x (swrites t) = false.
    Hypothesis C2 : i = x -> sc = true.
    Hypothesis C3 : has x (atoms u) = true -> has x (swrites t) = false \/ (sc = true /\ mustS x t = true /\ escS t = false).
    Let l0 := if has x (atoms u) then [ru] else [].
    Lemma loop_batch : batch l0 b1 b2.
    Proof. unfold l0, b2, when. destruct (has x (atoms u)); [apply batch_rd1|apply batch_nil]. Qed.
    Lemma body_exp o B r : tS (Body :: p) 0 t o B -> expo B r -> In r (und b2).
    Proof. intros H K. destruct loop_batch as (A & _). apply A. apply (v_exp _ _ _ _ _ _ _ VB eq_refl B); [eapply out_any; exact H|exact K]. Qed.
    Lemma body_live o B w : tS (Body :: p) 0 t o B -> (forall r, o <> ORet r) -> live B w -> exists d, In d (opn b2) /\ d_u d = w /\ incl l0 (d_r d).
    Proof.
      intros H N K. destruct loop_batch as (_ & A & _). destruct (v_live _ _ _ _ _ _ _ VB B w) as (d & Hd & Q); [|exact K|].
      - destruct o as [| | |r]; [left; exact H|right; left; exact H|right; right; exact H|elim (N r eq_refl)].
      - destruct (ext_fwd _ _ _ _ A Hd) as (d1 & Hd1 & Q1 & _ & I1). exists d1. split; [exact Hd1|split; [congruence|exact I1]].
    Qed.
    Lemma body_flow o B w r : tS (Body :: p) 0 t o B -> flow B w r -> exists d, In d (opn b2 ++ cls b2) /\ d_u d = w /\ In r (d_r d).
    Proof.
      intros H K. destruct loop_batch as (_ & A & E & _). destruct (v_flow _ _ _ _ _ _ _ VB B w r) as (d & Hd & Q & R); [eapply out_any; exact H|exact K|].
      apply in_app_or in Hd as [Hd|Hd].
      - destruct (ext_fwd _ _ _ _ A Hd) as (d1 & Hd1 & Q1 & I1 & _). exists d1. split; [apply in_or_app; auto|split; [congruence|auto]].
      - exists d. split; [apply in_or_app; right; rewrite E; exact Hd|auto].
    Qed.
    Lemma upd_exp o B r : tS (Body :: p) 0 t o B -> o = ONorm \/ o = OCont -> expo (B ++ rdU p UUpd (atoms u)) r -> In r (und b2).
    Proof.
      intros H Ho K. apply expo_app in K as [K|[N K]]; [eapply body_exp; eassumption|]. apply rdU_expo in K as [-> K].
      destruct loop_batch as (_ & A & _ & E). destruct (C3 K) as [M|(M1 & M2 & M3)].
      - assert (Q: opn b1 = []) by (destruct (v_may _ _ _ _ _ _ _ VB) as (Q & _); [exact M|exact Q]). apply (E Q). unfold l0. rewrite K. left. reflexivity.
      - destruct H as (st & st' & H). destruct Ho as [->| ->].
        + elim (proj1 (proj2 static_must) _ _ _ _ _ _ _ H M2 eq_refl). auto.
        + destruct (proj1 (proj2 static_esc) _ _ _ _ _ _ _ H M3). congruence.
    Qed.
    Lemma upd_live o B w : tS (Body :: p) 0 t o B -> (forall r, o <> ORet r) -> live (B ++ rdU p UUpd (atoms u)) w -> live B w.
    Proof. intros H N K. apply live_app in K as [K|[K _]]; [elim (rdU_nolive _ _ _ _ K)|exact K]. Qed.
    Lemma upd_flow o B w r : tS (Body :: p) 0 t o B -> (forall r, o <> ORet r) -> flow (B ++ rdU p UUpd (atoms u)) w r ->
      exists d, In d (opn b2 ++ cls b2) /\ d_u d = w /\ In r (d_r d).
    Proof.
      intros H N K. apply flow_app in K as [K|[K|[K1 K2]]]; [eapply body_flow; eassumption|elim (rdU_noflow _ _ _ _ _ K)|].
      apply rdU_expo in K2 as [-> K2]. destruct (body_live o B w H N K1) as (d & Hd & Q & L). exists d. split; [apply in_or_app; auto|]. split; [exact Q|].
      apply L. unfold l0. rewrite K2. left. reflexivity.
    Qed.
    Lemma to_carry w r : (exists d, In d (opn b2 ++ cls b2) /\ d_u d = w /\ In r (d_r d)) -> exists d, In d (carry b2 ++ cls b2) /\ d_u d = w /\ In r (d_r d).
    Proof.
      intros (d & Hd & Q & R). apply in_app_or in Hd as [Hd|Hd].
      - destruct (in_carry _ _ Hd) as (d1 & Hd1 & Q1 & I1 & _). exists d1. split; [apply in_or_app; auto|split; [congruence|auto]].
      - exists d. split; [apply in_or_app; auto|auto].
    Qed.
    Definition loop_fact (o : outcome) (X : utrace) : Prop :=
      (forall r, expo X r -> In r (und b2) \/ (r = rt /\ has x (catoms c) = true)) /\
      (forall w, o = ONorm -> live X w -> (exists d, In d (opn b2) /\ d_u d = w) \/ (w = uw /\ i = x)) /\
      (forall w r, flow X w r -> (exists d, In d (carry b2 ++ cls b2) /\ d_u d = w /\ In r (d_r d)) \/
         (i = x /\ w = uw /\ (In r (und b2) \/ (r = rt /\ has x (catoms c) = true)))).
    Lemma loop_last st o st' B : runsU I (Body :: p) 0 t st o st' B -> (forall w, o <> ORet w) \/ o <> ONorm -> forall o',
      (o' = ONorm -> forall w, o <> ORet w) -> loop_fact o' (rdU p UTest (catoms c) ++ B).
    Proof.
      intros H _ o' Ho. assert (K: tS (Body :: p) 0 t o B) by (exists st, st'; exact H). split; [|split].
      - intros r HE. apply expo_app in HE as [HE|[_ HE]]; [right; apply rdU_expo in HE; exact HE|left; eapply body_exp; eassumption].
      - intros w Q HL. apply live_app in HL as [HL|[HL _]]; [|elim (rdU_nolive _ _ _ _ HL)]. left. destruct (body_live o B w K (Ho Q) HL) as (d & Hd & Qd & _). eauto.
      - intros w r HF. left. apply to_carry. apply flow_app in HF as [HF|[HF|[HL _]]]; [elim (rdU_noflow _ _ _ _ _ HF)|eapply body_flow; eassumption|elim (rdU_nolive _ _ _ _ HL)].
    Qed.
    Lemma loop_facts0 p' i' c' u' t' st o st' X : runlU I p' i' c' u' t' st o st' X -> p' = p -> i' = i -> c' = c -> u' = u -> t' = t -> loop_fact o X.
    Proof.
      intros H. induction H as [p9 i9 c9 u9 s9|p9 i9 c9 u9 s9 st o1 st1 v o st' T1 T2 H H0 H1 H2 H3 IHrunlU|p9 i9 c9 u9 s9|p9 i9 c9 u9 s9]; intros Q1 Q2 Q3 Q4 Q5; subst p9 i9 c9 u9 s9.
      - split; [|split].
        + intros r HE. right. apply rdU_expo in HE. exact HE.
        + intros w _ HL. elim (rdU_nolive _ _ _ _ HL).
        + intros w r HF. elim (rdU_noflow _ _ _ _ _ HF).
      - destruct (IHrunlU eq_refl eq_refl eq_refl eq_refl eq_refl) as (E & L & Fl).
        assert (K: tS (Body :: p) 0 t o1 T1) by (exists st, st1; assumption).
        assert (NR: forall r, o1 <> ORet r) by (intros r Q; destruct H1; congruence).
        replace (T1 ++ rdU p UUpd (atoms u) ++ U p UUpd true i :: T2) with ((T1 ++ rdU p UUpd (atoms u)) ++ [U p UUpd true i] ++ T2) by (rewrite <- app_assoc; reflexivity).
        assert (EZ: forall r, expo ([U p UUpd true i] ++ T2) r -> (sc = true -> nw [U p UUpd true i]) /\ expo T2 r).
        { intros r HE. apply expo_app in HE as [HE|HE]; [apply expo_in in HE as [[<-|[]] [Q _]]; discriminate|exact HE]. }
        assert (LW: forall w, live [U p UUpd true i] w -> w = uw /\ i = x).
        { intros w HL. apply live_in in HL as [[<-|[]] [_ Q]]. simpl in Q. split; [unfold uw; rewrite Q; reflexivity|exact Q]. }
        split; [|split].
        + intros r HE. apply expo_app in HE as [HE|[_ HE]]; [right; apply rdU_expo in HE; exact HE|].
          apply expo_app in HE as [HE|[_ HE]]; [left; eapply upd_exp; eassumption|]. apply EZ in HE as [_ HE]. auto.
        + intros w Q HL. apply live_app in HL as [HL|[HL _]]; [|elim (rdU_nolive _ _ _ _ HL)].
          apply live_app in HL as [HL|[HL _]].
          * apply live_app in HL as [HL|[HL _]]; [auto|right; auto].
          * left. destruct (body_live o1 T1 w K NR (upd_live _ _ _ K NR HL)) as (d & Hd & Qd & _). eauto.
        + intros w r HF. apply flow_app in HF as [HF|[HF|[HL _]]]; [elim (rdU_noflow _ _ _ _ _ HF)| |elim (rdU_nolive _ _ _ _ HL)].
          apply flow_app in HF as [HF|[HF|[HL HE]]].
          * left. apply to_carry. eapply upd_flow; eassumption.
          * apply flow_app in HF as [HF|[HF|[HL HE]]]; [apply flow_live in HF as [_ (v' & [<-|[]] & [Q _])]; discriminate|auto|].
            right. destruct (LW w HL) as (Q1 & Q2). split; [exact Q2|split; [exact Q1|auto]].
          * apply EZ in HE as [NZ HE]. pose proof (upd_live _ _ _ K NR HL) as HL'. destruct (E r HE) as [E1|[E1 E2]].
            -- left. destruct (body_live o1 T1 w K NR HL') as (d & Hd & Qd & _). destruct (in_carry _ _ Hd) as (d1 & Hd1 & Q1 & _ & I1).
               exists d1. split; [apply in_or_app; auto|split; [congruence|auto]].
            -- exfalso. destruct (C1 E2) as [Q|Q].
               ++ apply (NZ (C2 Q) (U p UUpd true i)); [left; reflexivity|split; [reflexivity|exact Q]].
               ++ destruct K as (sa & sb & K). apply live_in in HL' as [HL' WW]. apply has_false in Q. exact (proj1 (proj2 static_nw) _ _ _ _ _ _ _ K Q w HL' WW).
      - eapply loop_last; [eassumption|left; discriminate|discriminate].
      - eapply loop_last; [eassumption|right; discriminate|discriminate].
    Qed.
    Lemma loop_facts st o st' X : runlU I p i c u t st o st' X -> loop_fact o X.
    Proof. intros H. eapply loop_facts0; eauto. Qed.
  End Loop.

  Lemma inv_open q0 F p s Ts Es Rs w : Inv q0 F p s Ts Es Rs -> may p = true -> wx w -> within q0 (u_at w) -> ~ F (u_at w) ->
    Inv q0 F p (St (und s) (D w [] :: opn s) (cls s)) Ts Es Rs.
  Proof.
    intros V M W1 W2 W3. constructor; simpl.
    - apply (v_exp _ _ _ _ _ _ _ V).
    - intros T w' H1 H2. destruct (v_live _ _ _ _ _ _ _ V T w' H1 H2) as (d & Hd & Q). eauto.
    - intros T w' r H1 H2. destruct (v_flow _ _ _ _ _ _ _ V T w' r H1 H2) as (d & Hd & Q). eauto.
    - intros d [<-|Hd]; [auto|apply (v_opn _ _ _ _ _ _ _ V); exact Hd].
    - congruence.
    - apply (v_must _ _ _ _ _ _ _ V).
    - apply (v_lock _ _ _ _ _ _ _ V).
  Qed.
  Lemma cat_two Ts a y (XN : tset) T : (exists T1 X, Ts T1 /\ XN X /\ T = T1 ++ a ++ y :: X) -> cat (cat (cat Ts (one a)) (one [y])) XN T.
  Proof.
    intros (T1 & X & H1 & H2 & ->). exists (T1 ++ a ++ [y]), X. split; [|split; [exact H2|rewrite <- !app_assoc; reflexivity]].
    exists (T1 ++ a), [y]. split; [|split; [reflexivity|rewrite <- app_assoc; reflexivity]]. exists T1, a. repeat split; auto.
  Qed.
  Lemma node_loop k i init c u t : BodyOK t -> NodeOK (NLoop k i init c u t).
  Proof.
    intros HB q0 F F' p ps s Ts Es Rs V OK [PD PDt] W HF HF'. cbn [okN] in OK.
    apply andb_true_iff in OK as [OK OK7]. apply andb_true_iff in OK as [OK OK6]. apply andb_true_iff in OK as [OK OK5].
    apply andb_true_iff in OK as [OK OK4]. apply andb_true_iff in OK as [OK OK3]. apply andb_true_iff in OK as [OK1 OK2].
    pose proof (HB (Body :: p) OK5 PDt) as VB.
    set (n := NLoop k i init c u t) in *.
    set (F1 := fun a => F' a \/ within (Body :: p) a).
    assert (NF1: ~ F1 p). { intros [K|K]; [apply HF' in K as [_ K]; apply K; apply within_refl|exact (not_within_self _ _ K)]. }
    assert (V1: Inv q0 F1 ps s Ts Es Rs).
    { eapply inv_weak; eauto. intros a [K|K]; [apply HF' in K; tauto|apply HF; eapply within_trans; [apply within_cons|exact K]]. }
    pose proof (step_reads _ _ _ _ _ _ _ p UInit (atoms init) true V1 OK1) as V2.
    assert (OK2': impb (String.eqb i x) (wrok sc ps) = true) by (destruct (String.eqb i x); [simpl in OK2 |- *; apply andb_true_iff in OK2; tauto|reflexivity]).
    pose proof (step_write _ _ _ _ _ _ _ p UInit i true V2 OK2' W NF1) as V3.
    set (p1 := wroteb (String.eqb i x) ps) in *.
    set (sI := when (String.eqb i x) (fun s => open_upd x p (wr1 sc pd true (U p UInit true x) s)) (when (has x (atoms init)) (rd1 last true (U p UInit false x)) s)).
    assert (VI: Inv q0 F1 p1 sI (cat (cat Ts (one (rdU p UInit (atoms init)))) (one [U p UInit true i])) Es Rs).
    { unfold sI. destruct (String.eqb i x) eqn:E; simpl in V3 |- *; [|exact V3]. apply inv_open; [exact V3|reflexivity|split; reflexivity|exact W|exact NF1]. }
    set (b1 := vS (Body :: p) 0%nat t st_empty) in *. set (b2 := when (has x (atoms u)) (rd1 last true (U p UUpd false x)) b1).
    set (rt := U p UTest false x). set (lc := if has x (catoms c) then [rt] else []).
    set (s3 := when (has x (catoms c)) (rd1 last true rt) sI).
    set (s4 := fold_left (fun s r => rdL sc dom cov last r s) (und b2) s3).
    assert (B: batch (lc ++ und b2) sI s4).
    { eapply batch_trans; [|apply batch_rdsL]. unfold lc, s3, when. destruct (has x (catoms c)); [apply batch_rd1|apply batch_nil]. }
    set (cl := fun d => existsb (fun e => negb (is_art e) && closes sc pd true (d_u e) d) (opn b2)).
    change (vN p n s) with (merge_for sc pd dom cov last b2 s3). set (s2 := merge_for sc pd dom cov last b2 s3).
    assert (C1: has x (catoms c) = true -> i = x \/ has x (swrites t) = false).
    { intros K. pose proof (impb_true _ _ OK3 K) as Q. apply andb_true_iff in Q as [_ Q]. apply orb_true_iff in Q as [Q|Q]; [left; apply String.eqb_eq; exact Q|right; apply negb_true_iff; exact Q]. }
    assert (C2: i = x -> sc = true).
    { intros ->. rewrite String.eqb_refl in OK2. simpl in OK2. apply andb_true_iff in OK2. tauto. }
    assert (C3: has x (atoms u) = true -> has x (swrites t) = false \/ (sc = true /\ mustS x t = true /\ escS t = false)).
    { intros K. pose proof (impb_true _ _ OK6 K) as Q. apply orb_true_iff in Q as [Q|Q]; [left; apply negb_true_iff; exact Q|right].
      apply andb_true_iff in Q as [Q Q3]. apply andb_true_iff in Q as [Q1 Q2]. apply negb_true_iff in Q3. auto. }
    pose proof (fun st o st' X => loop_facts p i c u t VB C1 C2 C3 st o st' X) as LF. unfold loop_fact in LF. fold b1 in LF. fold b2 in LF. fold rt in LF.
    set (XX := fun o => fun X => tN p n o (rdU p UInit (atoms init) ++ U p UInit true i :: X)).
    assert (SP: forall o X, XX o X -> exists st st', runlU I p i c u t st o st' X).
    { intros o X (st & st' & H). inversion H; subst. match goal with K : (_ ++ _)%list = (_ ++ _)%list |- _ => apply app_inv_head in K; injection K as <- end. eauto. }
    assert (ANY: forall X, XX ONorm X \/ none X \/ rets XX X -> exists o, XX o X) by (intros X [H|[[]|[r H]]]; [exists ONorm|exists (ORet r)]; exact H).
    assert (Bb: batch (if has x (atoms u) then [U p UUpd false x] else []) b1 b2).
    { unfold b2, when. destruct (has x (atoms u)); [apply batch_rd1|apply batch_nil]. }
    assert (OPb: forall e, In e (opn b2) -> wx (d_u e) /\ within (Body :: p) (u_at (d_u e))).
    { intros e He. destruct Bb as (_ & Bb & _). destruct (ext_bwd _ _ _ _ Bb He) as (e0 & He0 & ->). destruct (v_opn _ _ _ _ _ _ _ VB e0 He0) as (X1 & X2 & _). auto. }
    assert (OP4: forall d, In d (opn s4) -> wx (d_u d) /\ within q0 (u_at (d_u d)) /\ ~ F1 (u_at (d_u d))).
    { intros d Hd. destruct B as (_ & B & _). destruct (ext_bwd _ _ _ _ B Hd) as (d0 & Hd0 & ->). exact (v_opn _ _ _ _ _ _ _ VI d0 Hd0). }
    assert (MB: has x (swrites t) = false -> opn b2 = [] /\ cls b2 = []).
    { intros M. destruct (v_may _ _ _ _ _ _ _ VB) as (E1 & E2 & _); [exact M|]. destruct Bb as (_ & Bb & Cb & _). rewrite E1 in Bb. inversion Bb. split; congruence. }
    assert (CL: forall d, In d (opn s4) -> cl d = true -> sc = true /\ has x (swrites t) = true /\ ~ (u_at (d_u d) = p /\ u_el (d_u d) = UUpd) /\ forall X, XX ONorm X -> ~ nw X).
    { intros d Hd K. apply existsb_exists in K as (e & He & K). apply andb_true_iff in K as [_ K]. unfold closes in K. apply andb_true_iff in K as [K K3]. apply andb_true_iff in K as [_ K2]. simpl in K2.
      destruct (OPb e He) as (We & Ie). destruct (OP4 d Hd) as (_ & _ & NFd).
      destruct (PD (d_u e) (d_u d) Ie) as (P1 & P2); [intros Q; apply NFd; right; exact Q|exact K2|].
      split; [exact K3|]. split; [|split; [exact P1|]].
      - destruct (has x (swrites t)) eqn:M; [reflexivity|]. destruct (MB eq_refl) as (Q & _). rewrite Q in He. destruct He.
      - intros X (st & st' & HX) N. pose proof (P2 st st' _ HX) as Q. apply in_app_or in Q as [Q|[Q|Q]].
        + apply rdU_in in Q as (_ & Q & _). rewrite Q in Ie. exact (not_within_self _ _ Ie).
        + rewrite <- Q in Ie. exact (not_within_self _ _ Ie).
        + exact (N _ Q We). }
    assert (OS2: opn s2 = carry b2 ++ filter (fun d => negb (cl d)) (opn s4)) by reflexivity.
    assert (CS2: cls s2 = filter cl (opn s4) ++ cls b2 ++ cls s4) by reflexivity.
    eapply inv_weak; [eapply (merge q0 F1 F' p1 (after x n ps) sI s4 s2 (lc ++ und b2) _ Es Rs (XX ONorm) none (rets XX) VI B)| | | | | | | |].
    - apply incl_refl.
    - rewrite OS2, CS2. intros d Hd. apply in_app_or in Hd as [Hd|Hd].
      + destruct (cl d) eqn:E.
        * apply in_or_app. right. apply in_or_app. left. apply filter_In. auto.
        * apply in_or_app. left. apply in_or_app. right. apply filter_In. rewrite E. auto.
      + rewrite !in_app_iff. auto.
    - intros X r HX HE. apply ANY in HX as (o & HX). destruct (SP o X HX) as (st & st' & R). destruct (LF _ _ _ _ R) as (E & _ & _). split.
      + apply in_or_app. destruct (E r HE) as [Q|[-> Q]]; [right; exact Q|left]. unfold lc. rewrite Q. left. reflexivity.
      + apply expo_in in HE as [HE RR]. destruct (in_dec_x (catoms c ++ atoms u ++ sreads t)) as [K|K].
        * apply in_app_or in K as [K|K]; [apply has_in in K; pose proof (impb_true _ _ OK3 K) as Q; apply andb_true_iff in Q; tauto|].
          apply (impb_true _ _ OK4). apply has_in. apply in_or_app. apply in_app_or in K. tauto.
        * elim (proj2 (proj2 (proj2 (proj2 static_nr))) _ _ _ _ _ _ _ _ _ R K r HE RR).
    - intros X w [HX|[]] HL. destruct (SP ONorm X HX) as (st & st' & R). destruct (LF _ _ _ _ R) as (_ & L & _). destruct (L w eq_refl HL) as [(d & Hd & Q)|[-> Q]].
      + destruct (in_carry _ _ Hd) as (d1 & Hd1 & Q1 & _). exists d1. split; [rewrite OS2; apply in_or_app; auto|congruence].
      + assert (HI: In (D (U p UUpd true x) []) (opn sI)) by (unfold sI; rewrite Q, String.eqb_refl; left; reflexivity).
        destruct B as (_ & B & _). destruct (ext_fwd _ _ _ _ B HI) as (d1 & Hd1 & Q1 & _). exists d1. split; [|exact Q1].
        rewrite ?OS2, ?CS2. apply in_or_app. right. apply filter_In. split; [exact Hd1|]. destruct (cl d1) eqn:E; [|reflexivity].
        destruct (CL d1 Hd1 E) as (_ & _ & N & _). elim N. rewrite Q1. auto.
    - intros X w r HX HFl. apply ANY in HX as (o & HX). destruct (SP o X HX) as (st & st' & R). destruct (LF _ _ _ _ R) as (_ & _ & Fl).
      destruct (Fl w r HFl) as [(d & Hd & Q)|(Q & -> & K)].
      + exists d. split; [|exact Q]. apply in_app_or in Hd. rewrite OS2, CS2, !in_app_iff. tauto.
      + assert (HI: In (D (U p UUpd true x) []) (opn sI)) by (unfold sI; rewrite Q, String.eqb_refl; left; reflexivity).
        destruct B as (_ & B & _). destruct (ext_fwd _ _ _ _ B HI) as (d1 & Hd1 & Q1 & _ & I1). exists d1. split; [|split; [exact Q1|]].
        * rewrite ?OS2, ?CS2. destruct (cl d1) eqn:E.
          -- apply in_or_app. right. apply in_or_app. left. apply filter_In. auto.
          -- apply in_or_app. left. apply in_or_app. right. apply filter_In. rewrite E. auto.
        * apply I1. apply in_or_app. destruct K as [K|[-> K]]; [right; exact K|left]. unfold lc. rewrite K. left. reflexivity.
    - intros d Hd. destruct (cl d) eqn:E.
      + right. destruct (CL d Hd E) as (Q1 & Q2 & _ & Q3). split.
        * intros X [HX|[]]. auto.
        * apply (v_lock _ _ _ _ _ _ _ V). pose proof (impb_true _ _ OK7 Q2) as Q. unfold wrok in Q. rewrite Q1 in Q. simpl in Q. rewrite orb_false_r in Q. apply negb_true_iff. exact Q.
      + left. rewrite ?OS2, ?CS2. apply in_or_app. right. apply filter_In. rewrite E. auto.
    - intros d Hd. rewrite OS2 in Hd. apply in_app_or in Hd as [Hd|Hd].
      + apply in_map_iff in Hd as (e & <- & He). simpl. destruct (OPb e He) as (X1 & X2). assert (X3: within p (u_at (d_u e))) by (eapply within_trans; [apply within_cons|exact X2]).
        split; [exact X1|split; [eapply within_trans; eassumption|]]. intros K. apply HF' in K. tauto.
      + apply filter_In in Hd as [Hd _]. destruct (OP4 d Hd) as (X1 & X2 & X3). split; [exact X1|split; [exact X2|]]. intros K. apply X3. left. exact K.
    - unfold p1. destruct (String.eqb i x); reflexivity.
    - unfold after. cbn [nwrites may]. intros M. apply orb_false_iff in M as [M1 M2]. change (String.eqb x i || has x (swrites t) = false) in M2. apply orb_false_iff in M2 as [M2 M3].
      assert (Pm: may p1 = false) by (unfold p1; rewrite String.eqb_sym, M2; exact M1). split; [exact Pm|].
      destruct (v_may _ _ _ _ _ _ _ VI Pm) as (Q1 & Q2 & _). destruct (MB M3) as (E1 & E2).
      assert (E3: opn s4 = []) by (destruct B as (_ & B & _); rewrite Q1 in B; inversion B; reflexivity).
      assert (E4: cls s4 = []) by (destruct B as (_ & _ & B & _); congruence).
      rewrite OS2, CS2. unfold carry. rewrite E1, E2, E3, E4. split; [reflexivity|split; [reflexivity|]].
      intros X HX. apply ANY in HX as (o & HX). destruct (SP o X HX) as (st & st' & R). apply (proj2 (proj2 (proj2 (proj2 static_nw))) _ _ _ _ _ _ _ _ _ R).
      apply has_false. simpl. rewrite M2. exact M3.
    - unfold after. cbn [must]. change (mustN x n) with (String.eqb i x). unfold p1. destruct (String.eqb i x); simpl; [auto|rewrite orb_false_r; auto].
    - unfold after. cbn [lock escN]. change (escN n) with false. simpl. rewrite orb_false_r. intros M. split; [unfold p1; destruct (String.eqb i x); exact M|]. left. intros X [].
    - intros T (T1 & X & H1 & (st & st' & H2) & ->). pose proof H2 as H3. inversion H2; subst. apply cat_two. exists T1, T. split; [exact H1|split; [|reflexivity]]. exists st, st'. exact H3.
    - intros T [HT|(T1 & X & H1 & [(st & st' & H2)|(st & st' & H2)] & ->)]; [left; exact HT| |]; destruct (proj1 static_esc _ _ _ _ _ _ H2 eq_refl); congruence.
    - intros T [HT|(T1 & X & H1 & (r & st & st' & H2) & ->)]; [left; exact HT|right]. pose proof H2 as H3. inversion H2; subst. apply cat_two. exists T1, T. split; [exact H1|split; [|reflexivity]]. exists r, st, st'. exact H3.
    - auto.
    - reflexivity.
    - auto.
    - auto.
    - auto.
  Qed.

  Theorem all_ok : (forall n, NodeOK n) /\ (forall s, SeqOK s) /\ (forall b j s, nthB b j = Some s -> SeqOK s).
  Proof.
    apply ir_mind.
    - apply node_block.
    - intros s H. apply node_seq. exact H.
    - intros bs H. apply node_if. intros j s Q. apply seq_body. exact (H j s Q).
    - intros s H. apply node_while. apply seq_body. exact H.
    - intros k i init c u s H. apply node_loop. apply seq_body. exact H.
    - apply node_jump. auto.
    - apply node_jump. auto.
    - apply node_ret.
    - apply seq_nil.
    - intros n Hn a r Hr. apply seq_cons; assumption.
    - intros j s Q. discriminate.
    - intros c s Hs r Hr [|j] t Q; simpl in Q; [injection Q as <-; exact Hs|exact (Hr j t Q)].
  Qed.
  Theorem reach_sound p st o st' T w r : pdomS I pd [] 0 p -> regular x sc p = true -> runsU I [] 0 p st o st' T -> flow T w r ->
    reported x sc pd dom cov last p w r.
  Proof.
    intros PD OK R HF.
    pose proof (proj1 (proj2 all_ok) p [] (fun _ => True) (fun _ => False) [] 0%nat P_top st_empty (one []) none none (inv_init _ _ _) OK PD (within_refl _) (fun _ _ _ _ => Logic.I) (fun _ K => False_ind _ K)) as V.
    apply (v_flow _ _ _ _ _ _ _ V T w r); [|exact HF].
    assert (K: forall f : tset, f T -> cat (one []) f T) by (intros f Hf; exists [], T; repeat split; auto).
    destruct o as [| | |y]; [left|right; left; right|right; left; right|right; right; right]; apply K.
    - exists st, st'. exact R.
    - left. exists st, st'. exact R.
    - right. exists st, st'. exact R.
    - exists y, st, st'. exact R.
  Qed.
End Sound.
