(** The users graph and post-dominance.

    Models Users::traverse (sdfg/src/analysis/users.cpp:80-417) as the set of paths
    from the entry vertex of an element to its exit vertex, or to a sink inside
    it (a return).  NOP vertices are left out; a chain over a set of atoms is the
    list of atoms.  [pd_graph]: what DominanceAnalysis::post_dominates
    (dominance_analysis.cpp:31-41) answers: every path from [v] to a sink passes [u]. *)
From Verif Require Import Reach ReachProofs.
From Coq Require Import Bool.

Definition is_return (n : node) : bool := match n with NReturn _ => true | _ => false end.
Fixpoint branch (b : brs) (j : nat) : option seq := match b, j with BNil, _ => None | BCons _ s _, O => Some s | BCons _ _ r, S j => branch r j end.
(** users.cpp:216-241: all reads of a transition, then all writes *)
Definition asgW (p : path) (a : assigns) : list user := rdU p UAsg (asg_reads a) ++ map (U p UAsg true) (map fst a).
(** The vertex the back edge of a for loop leads to (users.cpp:354-361, 393). *)
Definition turn (p : path) (i : string) (c : cond) : user := List.last (rdU p UTest (catoms c)) (U p UInit true i).

(** The flag: the path reaches the exit vertex (otherwise it ends in a return). *)
Inductive wlkN : path -> node -> bool -> list user -> Prop :=
| W_block p b : wlkN p (NBlock b) true (blkU p 0 b)
| W_seq p s e T : wlkS p 0 s e T -> wlkN p (NSeq s) e T
| W_branch p bs j s e T : branch bs j = Some s -> wlkS (Br j :: p) 0 s e T ->
    wlkN p (NIf bs) e (rdU p UCond (concat (map catoms (bconds bs))) ++ T)
| W_skip p bs : complete bs = false -> wlkN p (NIf bs) true (rdU p UCond (concat (map catoms (bconds bs))))
| W_while p s e T : wlkW p s e T -> wlkN p (NWhile s) e T
| W_early p k i init c u s l1 l2 e T : catoms c = l1 ++ l2 -> l1 <> [] -> wlkT p i c u s e T ->
    wlkN p (NLoop k i init c u s) e (rdU p UInit (atoms init) ++ U p UInit true i :: rdU p UTest l1 ++ T)
| W_loop p k i init c u s e T : wlkL p i c u s e T ->
    wlkN p (NLoop k i init c u s) e (rdU p UInit (atoms init) ++ U p UInit true i :: rdU p UTest (catoms c) ++ T)
| W_break p : wlkN p NBreak true []
| W_continue p : wlkN p NContinue true []
| W_return p r : wlkN p (NReturn r) false [U p URet false r]
(** users.cpp:198-256: a return ends the traversal of the sequence, whose exit
    is then joined to the vertex before the return *)
with wlkS : path -> nat -> seq -> bool -> list user -> Prop :=
| W_nil q k : wlkS q k SNil true []
| W_cons q k n a r e T1 T2 : wlkN (Kid k :: q) n true T1 -> wlkS q (S k) r e T2 -> wlkS q k (SCons n a r) e (T1 ++ asgW (Kid k :: q) a ++ T2)
| W_stop q k n a r T : wlkN (Kid k :: q) n false T -> wlkS q k (SCons n a r) false T
| W_past q k v a r : wlkS q k (SCons (NReturn v) a r) true []
(** users.cpp:305-333 *)
with wlkW : path -> seq -> bool -> list user -> Prop :=
| W_empty p s : wlkW p s true []
| W_once p s T : wlkS (Body :: p) 0 s true T -> wlkW p s true T
| W_again p s e T1 T2 : wlkS (Body :: p) 0 s true T1 -> wlkW p s e T2 -> wlkW p s e (T1 ++ T2)
| W_wstop p s T : wlkS (Body :: p) 0 s false T -> wlkW p s false T
(** at the exit vertex of a for loop: leave, or take the back edge *)
with wlkT : path -> string -> cond -> expr -> seq -> bool -> list user -> Prop :=
| W_leave p i c u s : wlkT p i c u s true []
| W_back p i c u s e T : wlkL p i c u s e T -> wlkT p i c u s e (turn p i c :: T)
(** after the vertex the back edge leads to *)
with wlkL : path -> string -> cond -> expr -> seq -> bool -> list user -> Prop :=
| W_out p i c u s e T : catoms c <> [] -> wlkT p i c u s e T -> wlkL p i c u s e T
| W_body p i c u s e T1 T2 : wlkS (Body :: p) 0 s true T1 -> wlkT p i c u s e T2 ->
    wlkL p i c u s e (T1 ++ rdU p UUpd (atoms u) ++ U p UUpd true i :: T2)
| W_lstop p i c u s T : wlkS (Body :: p) 0 s false T -> wlkL p i c u s false T.
Scheme wlkN_ind' := Minimality for wlkN Sort Prop
with wlkS_ind' := Minimality for wlkS Sort Prop
with wlkW_ind' := Minimality for wlkW Sort Prop
with wlkT_ind' := Minimality for wlkT Sort Prop
with wlkL_ind' := Minimality for wlkL Sort Prop.
Combined Scheme wlk_mind from wlkN_ind', wlkS_ind', wlkW_ind', wlkT_ind', wlkL_ind'.

Definition walk (p : seq) (T : list user) : Prop := exists e, wlkS [] 0 p e T.
Definition pd_graph (p : seq) (pd : user -> user -> bool) : Prop := forall u v, pd u v = true ->
  (exists A B, walk p (A ++ v :: B)) /\ forall A B, walk p (A ++ v :: B) -> In u B.
(** every loop condition mentions a container *)
Fixpoint testN (n : node) : bool :=
  match n with
  | NLoop _ _ _ c _ s => nonempty (catoms c) && testS s
  | NSeq s | NWhile s => testS s
  | NIf bs => testB bs
  | _ => true
  end
with testS (s : seq) : bool := match s with SNil => true | SCons n _ r => testN n && testS r end
with testB (b : brs) : bool := match b with BNil => true | BCons _ s r => testS s && testB r end.

(** The users of a node lie at or below its position. *)
Lemma turn_at p i c : u_at (turn p i c) = p.
Proof.
  unfold turn. generalize (catoms c) as l. induction l as [|a l IH]; [reflexivity|]. destruct l as [|b l]; [reflexivity|]. exact IH.
Qed.
Lemma walk_at :
  (forall p n e T, wlkN p n e T -> forall v, In v T -> within p (u_at v)) /\
  (forall q k s e T, wlkS q k s e T -> forall v, In v T -> within q (u_at v)) /\
  (forall p s e T, wlkW p s e T -> forall v, In v T -> within p (u_at v)) /\
  (forall p i c u s e T, wlkT p i c u s e T -> forall v, In v T -> within p (u_at v)) /\
  (forall p i c u s e T, wlkL p i c u s e T -> forall v, In v T -> within p (u_at v)).
Proof.
  assert (RD: forall p e l v, In v (rdU p e l) -> within p (u_at v)) by (intros p e l v Hv; apply in_map_iff in Hv as (y & <- & _); apply within_refl).
  assert (ST: forall st p v, within (st :: p) (u_at v) -> within p (u_at v)) by (intros st p v Hv; eapply within_trans; [apply within_cons|exact Hv]).
  assert (AS: forall p a v, In v (asgW p a) -> within p (u_at v)).
  { intros p a v Hv. apply in_app_or in Hv as [Hv|Hv]; [eapply RD; exact Hv|]. apply in_map_iff in Hv as (y & <- & _). apply within_refl. }
  apply wlk_mind; intros; try (match goal with H : In _ [] |- _ => destruct H end); eauto.
  - assert (BL: forall b j v, In v (blkU p j b) -> within p (u_at v)).
    { clear - RD. induction b as [|o b IH]; intros j v H; [destruct H|]. simpl in H. apply in_app_or in H as [H|H]; [|eapply IH; exact H].
      unfold opU in H. apply in_app_or in H as [H|[<-|[]]]; [eapply RD; exact H|apply within_refl]. }
    eapply BL; eassumption.
  - match goal with H : In _ (_ ++ _) |- _ => apply in_app_or in H as [Hv|Hv] end; eauto.
  - match goal with H : In _ (_ ++ _ :: _) |- _ => apply in_app_or in H as [Hv|[<-|Hv]] end; [eauto|apply within_refl|apply in_app_or in Hv as [Hv|Hv]; eauto].
  - match goal with H : In _ (_ ++ _ :: _) |- _ => apply in_app_or in H as [Hv|[<-|Hv]] end; [eauto|apply within_refl|apply in_app_or in Hv as [Hv|Hv]; eauto].
  - match goal with H : In _ [_] |- _ => destruct H as [<-|[]] end. apply within_refl.
  - match goal with H : In _ (_ ++ _) |- _ => apply in_app_or in H as [Hv|Hv] end; [eauto|]. apply in_app_or in Hv as [Hv|Hv]; eauto.
  - match goal with H : In _ (_ ++ _) |- _ => apply in_app_or in H as [Hv|Hv] end; eauto.
  - match goal with H : In _ (_ :: _) |- _ => destruct H as [<-|Hv] end; [rewrite turn_at; apply within_refl|eauto].
  - match goal with H : In _ (_ ++ _) |- _ => apply in_app_or in H as [Hv|Hv] end; [eauto|]. apply in_app_or in Hv as [Hv|[<-|Hv]]; [eauto|apply within_refl|eauto].
Qed.
Section Avoid.
  Variable q0 : path.           (* the body of some loop *)
  Hypothesis q0_body : exists pl, q0 = Body :: pl.
  Definition fr (T : list user) : Prop := forall u, In u T -> ~ within q0 (u_at u).
  Lemma fr_app a b : fr a -> fr b -> fr (a ++ b). Proof. intros H K u Hu. apply in_app_or in Hu as [Hu|Hu]; auto. Qed.
  Lemma fr_cons u b : ~ within q0 (u_at u) -> fr b -> fr (u :: b). Proof. intros H K v [<-|Hv]; auto. Qed.
  Lemma fr_nil : fr []. Proof. intros u []. Qed.
  Lemma fr_rdU p e l : ~ within q0 p -> fr (rdU p e l).
  Proof. intros H u Hu. apply in_map_iff in Hu as (y & <- & _). exact H. Qed.
  Lemma fr_blk p b : ~ within q0 p -> forall j, fr (blkU p j b).
  Proof.
    intros H. induction b as [|o b IH]; intros j; [apply fr_nil|]. apply fr_app; [|apply IH]. unfold opU. apply fr_app; [apply fr_rdU; exact H|].
    apply fr_cons; [exact H|apply fr_nil].
  Qed.
  Lemma fr_asg p a : ~ within q0 p -> fr (asgW p a).
  Proof. intros H. apply fr_app; [apply fr_rdU; exact H|]. intros u Hu. apply in_map_iff in Hu as (y & <- & _). exact H. Qed.
  Lemma fr_tail A v B (T : list user) : fr T -> T = A ++ v :: B -> fr B.
  Proof. intros H -> u Hu. apply H. apply in_or_app. right. right. exact Hu. Qed.
  Lemma out_step p st : ~ within q0 p -> st <> Body -> ~ within q0 (st :: p).
  Proof.
    intros H N (l & E). destruct q0_body as (pl & Q). rewrite Q in E. destruct l as [|y l]; simpl in E; injection E as E1 E2; [congruence|].
    apply H. exists l. rewrite Q. exact E2.
  Qed.
  Lemma out_body p : ~ within q0 p -> ~ within q0 (Body :: p) \/ q0 = Body :: p.
  Proof.
    intros H. destruct (list_eq_dec pstep_dec q0 (Body :: p)) as [E|N]; [auto|left]. intros (l & E). destruct l as [|y l]; simpl in E; [congruence|].
    injection E as E1 E2. apply H. exists l. exact E2.
  Qed.
  (** a path through a node that avoids the body *)
  Lemma avoid :
    (forall n p, testN n = true -> is_return n = false -> ~ within q0 p -> exists T, wlkN p n true T /\ fr T) /\
    (forall s q k, testS s = true -> ~ within q0 q -> exists T, wlkS q k s true T /\ fr T) /\
    (forall b p, testB b = true -> ~ within q0 p -> b = BNil \/ exists s T, branch b 0 = Some s /\ wlkS (Br 0 :: p) 0 s true T /\ fr T).
  Proof.
    apply ir_mind.
    - intros b p _ _ H. eexists. split; [apply W_block|apply fr_blk; exact H].
    - intros s IH p T _ H. destruct (IH p 0%nat T H) as (X & H1 & H2). exists X. split; [apply W_seq; exact H1|exact H2].
    - intros b IH p T _ H. destruct (IH p T H) as [->|(s & X & E & H1 & H2)].
      + eexists. split; [apply W_skip; reflexivity|]. apply fr_rdU. exact H.
      + eexists. split; [eapply W_branch; eassumption|]. apply fr_app; [apply fr_rdU; exact H|exact H2].
    - intros s IH p T _ H. exists []. split; [apply W_while, W_empty|apply fr_nil].
    - intros k i init c u s IH p T _ H. simpl in T. apply andb_true_iff in T as [T _].
      eexists. split; [apply W_loop; apply W_out; [destruct (catoms c); [discriminate|discriminate]|apply W_leave]|].
      apply fr_app; [apply fr_rdU; exact H|]. apply fr_cons; [exact H|]. apply fr_app; [apply fr_rdU; exact H|apply fr_nil].
    - intros p _ _ _. exists []. split; [constructor|apply fr_nil].
    - intros p _ _ _. exists []. split; [constructor|apply fr_nil].
    - intros r p _ E. discriminate.
    - intros q k _ _. exists []. split; [constructor|apply fr_nil].
    - intros n Hn a r Hr q k T H. apply andb_true_iff in T as [T1 T2]. destruct (is_return n) eqn:E.
      + destruct n; try discriminate. exists []. split; [apply W_past|apply fr_nil].
      + assert (HK: ~ within q0 (Kid k :: q)) by (apply out_step; [exact H|discriminate]).
        destruct (Hn (Kid k :: q) T1 eq_refl HK) as (X & H1 & H2). destruct (Hr q (S k) T2 H) as (Y & H3 & H4).
        eexists. split; [eapply W_cons; eassumption|]. apply fr_app; [exact H2|]. apply fr_app; [apply fr_asg; exact HK|exact H4].
    - intros p _ _. left. reflexivity.
    - intros c s Hs r _ p T H. apply andb_true_iff in T as [T _]. right.
      destruct (Hs (Br 0 :: p) 0%nat T) as (X & H1 & H2); [apply out_step; [exact H|discriminate]|]. exists s, X. auto.
  Qed.
  Lemma testB_branch b : testB b = true -> forall j s, branch b j = Some s -> testS s = true.
  Proof.
    induction b as [|c t b IH]; intros H [|j] s E; simpl in E; try discriminate; simpl in H; apply andb_true_iff in H as [H1 H2].
    - injection E as <-. exact H1.
    - eapply IH; eassumption.
  Qed.
  Definition resume (W : bool -> list user -> Prop) (e : bool) (T : list user) : Prop := forall A v B, T = A ++ v :: B -> ~ within q0 (u_at v) ->
    exists e' B', W e' (A ++ v :: B') /\ fr B'.
  (** split at a vertex of the chain [X], keep the rest of the chain *)
  Lemma chain (W : bool -> list user -> Prop) X Y A v B : fr X -> (exists e Z, W e (X ++ Z) /\ fr Z) ->
    (forall A' , Y = A' ++ v :: B -> A = X ++ A' -> exists e' B', W e' (A ++ v :: B') /\ fr B') ->
    X ++ Y = A ++ v :: B -> exists e' B', W e' (A ++ v :: B') /\ fr B'.
  Proof.
    intros F (e & Z & HW & FZ) K E. apply split_app in E as [(Q1 & -> & E)|(P2 & E1 & E2)].
    - exists e, (Q1 ++ Z). split; [rewrite <- app_assoc in HW; exact HW|]. apply fr_app; [|exact FZ]. eapply fr_tail; [exact F|reflexivity].
    - eapply K; eassumption.
  Qed.
  Theorem resume_all :
    (forall p n e T, wlkN p n e T -> testN n = true -> ~ within q0 p -> resume (wlkN p n) e T) /\
    (forall q k s e T, wlkS q k s e T -> testS s = true -> ~ within q0 q -> resume (wlkS q k s) e T) /\
    (forall p s e T, wlkW p s e T -> testS s = true -> ~ within q0 p -> resume (wlkW p s) e T) /\
    (forall p i c u s e T, wlkT p i c u s e T -> testS s = true -> catoms c <> [] -> ~ within q0 p -> resume (wlkT p i c u s) e T) /\
    (forall p i c u s e T, wlkL p i c u s e T -> testS s = true -> catoms c <> [] -> ~ within q0 p -> resume (wlkL p i c u s) e T).
  Proof.
    assert (INB: forall p k s e T v, wlkS (Body :: p) k s e T -> In v T -> within (Body :: p) (u_at v)).
    { intros p k s e T v H. exact (proj1 (proj2 walk_at) _ _ _ _ _ H v). }
    (* a vertex of the body of a loop at p, outside q0: the body is outside q0 *)
    assert (OB: forall p k s e T A v B, wlkS (Body :: p) k s e T -> T = A ++ v :: B -> ~ within q0 (u_at v) -> ~ within q0 p -> ~ within q0 (Body :: p)).
    { intros p k s e T A v B H E N P. destruct (out_body p P) as [K|K]; [exact K|]. elim N. rewrite K. eapply INB; [exact H|]. rewrite E. apply in_or_app. right. left. reflexivity. }
    apply wlk_mind.
    - intros p b _ P A v B E N. exists true, B. rewrite <- E. split; [apply W_block|]. eapply fr_tail; [|exact E]. apply fr_blk. exact P.
    - intros p s e T _ IH TE P A v B E N. destruct (IH TE P A v B E N) as (e' & B' & H & F). exists e', B'. split; [apply W_seq; exact H|exact F].
    - intros p bs j s e T Hj HT IH TE P A v B E N. assert (P': ~ within q0 (Br j :: p)) by (apply out_step; [exact P|discriminate]).
      pose proof (testB_branch bs TE j s Hj) as TS. eapply (chain (wlkN p (NIf bs)) _ _ A v B); [apply fr_rdU; exact P| | |exact E].
      + destruct (proj1 (proj2 avoid) s (Br j :: p) 0%nat TS P') as (Z & HZ & FZ). exists true, Z. split; [eapply W_branch; eassumption|exact FZ].
      + intros A' E' ->. destruct (IH TS P' A' v B E' N) as (e' & B' & H & F). exists e', B'. split; [|exact F]. rewrite <- app_assoc. eapply W_branch; eassumption.
    - intros p bs C _ P A v B E N. exists true, B. rewrite <- E. split; [apply W_skip; exact C|]. eapply fr_tail; [|exact E]. apply fr_rdU. exact P.
    - intros p s e T _ IH TE P A v B E N. destruct (IH TE P A v B E N) as (e' & B' & H & F). exists e', B'. split; [apply W_while; exact H|exact F].
    - intros p k i init c u s l1 l2 e T EC NE HT IH TE P A v B E N. simpl in TE. apply andb_true_iff in TE as [TC TE].
      assert (NC: catoms c <> []) by (destruct (catoms c); discriminate).
      replace (rdU p UInit (atoms init) ++ U p UInit true i :: rdU p UTest l1 ++ T) with ((rdU p UInit (atoms init) ++ U p UInit true i :: rdU p UTest l1) ++ T) in E by (rewrite <- app_assoc; reflexivity).
      eapply (chain (wlkN p (NLoop k i init c u s)) _ _ A v B); [| | |exact E].
      + apply fr_app; [apply fr_rdU; exact P|]. apply fr_cons; [exact P|apply fr_rdU; exact P].
      + exists true, []. split; [|apply fr_nil]. rewrite <- app_assoc. simpl. eapply W_early; [exact EC|exact NE|apply W_leave].
      + intros A' E' ->. destruct (IH TE NC P A' v B E' N) as (e' & B' & H & F). exists e', B'. split; [|exact F].
        rewrite <- !app_assoc. simpl. eapply W_early; eassumption.
    - intros p k i init c u s e T HT IH TE P A v B E N. simpl in TE. apply andb_true_iff in TE as [TC TE].
      assert (NC: catoms c <> []) by (destruct (catoms c); discriminate).
      replace (rdU p UInit (atoms init) ++ U p UInit true i :: rdU p UTest (catoms c) ++ T) with ((rdU p UInit (atoms init) ++ U p UInit true i :: rdU p UTest (catoms c)) ++ T) in E by (rewrite <- app_assoc; reflexivity).
      eapply (chain (wlkN p (NLoop k i init c u s)) _ _ A v B); [| | |exact E].
      + apply fr_app; [apply fr_rdU; exact P|]. apply fr_cons; [exact P|apply fr_rdU; exact P].
      + exists true, []. split; [|apply fr_nil]. rewrite <- app_assoc. simpl. apply W_loop. apply W_out; [exact NC|apply W_leave].
      + intros A' E' ->. destruct (IH TE NC P A' v B E' N) as (e' & B' & H & F). exists e', B'. split; [|exact F].
        rewrite <- !app_assoc. simpl. apply W_loop. exact H.
    - intros p _ _ A v B E. destruct A; discriminate.
    - intros p _ _ A v B E. destruct A; discriminate.
    - intros p r _ P A v B E N. exists false, B. rewrite <- E. split; [apply W_return|]. destruct A as [|a A]; [injection E as <- <-; apply fr_nil|]. destruct A; discriminate.
    - intros q k _ _ A v B E. destruct A; discriminate.
    - intros q k n a r e T1 T2 H1 IH1 H2 IH2 TE P A v B E N. apply andb_true_iff in TE as [TE1 TE2].
      assert (PK: ~ within q0 (Kid k :: q)) by (apply out_step; [exact P|discriminate]).
      destruct (proj1 (proj2 avoid) r q (S k) TE2 P) as (Z & HZ & FZ). apply split_app in E as [(Q1 & E & EB)|(P2 & EA & E)].
      + destruct (IH1 TE1 PK A v Q1 E N) as ([|] & B' & H & F).
        * exists true, (B' ++ asgW (Kid k :: q) a ++ Z). split; [|apply fr_app; [exact F|apply fr_app; [apply fr_asg; exact PK|exact FZ]]].
          replace (A ++ v :: B' ++ asgW (Kid k :: q) a ++ Z) with ((A ++ v :: B') ++ asgW (Kid k :: q) a ++ Z) by (rewrite <- app_assoc; reflexivity). eapply W_cons; eassumption.
        * exists false, B'. split; [apply W_stop; exact H|exact F].
      + subst A. apply split_app in E as [(Q1 & E & EB)|(P3 & EA & E)].
        * exists true, (Q1 ++ Z). split; [|apply fr_app; [eapply fr_tail; [apply fr_asg; exact PK|exact E]|exact FZ]].
          replace ((T1 ++ P2) ++ v :: Q1 ++ Z) with (T1 ++ (P2 ++ v :: Q1) ++ Z) by (rewrite <- !app_assoc; reflexivity). rewrite <- E. eapply W_cons; eassumption.
        * subst P2. destruct (IH2 TE2 P P3 v B E N) as (e' & B' & H & F). exists e', B'. split; [|exact F]. rewrite <- !app_assoc. eapply W_cons; eassumption.
    - intros q k n a r T H IH TE P A v B E N. apply andb_true_iff in TE as [TE1 TE2].
      assert (PK: ~ within q0 (Kid k :: q)) by (apply out_step; [exact P|discriminate]).
      destruct (IH TE1 PK A v B E N) as ([|] & B' & H' & F).
      + destruct (proj1 (proj2 avoid) r q (S k) TE2 P) as (Z & HZ & FZ). exists true, (B' ++ asgW (Kid k :: q) a ++ Z).
        split; [|apply fr_app; [exact F|apply fr_app; [apply fr_asg; exact PK|exact FZ]]].
        replace (A ++ v :: B' ++ asgW (Kid k :: q) a ++ Z) with ((A ++ v :: B') ++ asgW (Kid k :: q) a ++ Z) by (rewrite <- app_assoc; reflexivity). eapply W_cons; eassumption.
      + exists false, B'. split; [apply W_stop; exact H'|exact F].
    - intros q k w a r _ _ A v B E. destruct A; discriminate.
    - intros p s _ _ A v B E. destruct A; discriminate.
    - intros p s T HT IH TE P A v B E N. destruct (IH TE (OB _ _ _ _ _ _ _ _ HT E N P) A v B E N) as ([|] & B' & H & F); eexists; exists B'; (split; [|exact F]); [apply W_once|apply W_wstop]; exact H.
    - intros p s e T1 T2 HT IH1 HW IH2 TE P A v B E N. apply split_app in E as [(Q1 & E & EB)|(P2 & EA & E)].
      + destruct (IH1 TE (OB _ _ _ _ _ _ _ _ HT E N P) A v Q1 E N) as ([|] & B' & H & F); eexists; exists B'; (split; [|exact F]); [apply W_once|apply W_wstop]; exact H.
      + subst A. destruct (IH2 TE P P2 v B E N) as (e' & B' & H & F). exists e', B'. split; [|exact F]. rewrite <- app_assoc. eapply W_again; eassumption.
    - intros p s T HT IH TE P A v B E N. destruct (IH TE (OB _ _ _ _ _ _ _ _ HT E N P) A v B E N) as ([|] & B' & H & F); eexists; exists B'; (split; [|exact F]); [apply W_once|apply W_wstop]; exact H.
    - intros p i c u s _ _ _ A v B E. destruct A; discriminate.
    - intros p i c u s e T HT IH TE NC P A v B E N. destruct A as [|a A]; simpl in E; injection E as E1 E2.
      + subst v. exists true, []. split; [|apply fr_nil]. simpl. apply W_back. apply W_out; [exact NC|apply W_leave].
      + subst a. destruct (IH TE NC P A v B E2 N) as (e' & B' & H & F). exists e', B'. split; [|exact F]. simpl. apply W_back. exact H.
    - intros p i c u s e T NC' HT IH TE NC P A v B E N. destruct (IH TE NC P A v B E N) as (e' & B' & H & F). exists e', B'. split; [|exact F]. apply W_out; assumption.
    - intros p i c u s e T1 T2 HT IH1 HW IH2 TE NC P A v B E N. apply split_app in E as [(Q1 & E & EB)|(P2 & EA & E)].
      + destruct (IH1 TE (OB _ _ _ _ _ _ _ _ HT E N P) A v Q1 E N) as ([|] & B' & H & F).
        * exists true, (B' ++ rdU p UUpd (atoms u) ++ [U p UUpd true i]). split; [|apply fr_app; [exact F|apply fr_app; [apply fr_rdU; exact P|apply fr_cons; [exact P|apply fr_nil]]]].
          replace (A ++ v :: B' ++ rdU p UUpd (atoms u) ++ [U p UUpd true i]) with ((A ++ v :: B') ++ rdU p UUpd (atoms u) ++ U p UUpd true i :: []) by (rewrite <- app_assoc; reflexivity).
          apply W_body; [exact H|apply W_leave].
        * exists false, B'. split; [apply W_lstop; exact H|exact F].
      + subst A. replace (rdU p UUpd (atoms u) ++ U p UUpd true i :: T2) with ((rdU p UUpd (atoms u) ++ [U p UUpd true i]) ++ T2) in E by (rewrite <- app_assoc; reflexivity).
        apply split_app in E as [(Q1 & E & EB)|(P3 & EA & E)].
        * exists true, Q1. split.
          -- replace ((T1 ++ P2) ++ v :: Q1) with (T1 ++ (P2 ++ v :: Q1)) by (rewrite <- app_assoc; reflexivity). rewrite <- E. apply W_body; [exact HT|apply W_leave].
          -- eapply fr_tail; [|exact E]. apply fr_app; [apply fr_rdU; exact P|apply fr_cons; [exact P|apply fr_nil]].
        * subst P2. destruct (IH2 TE NC P P3 v B E N) as (e' & B' & H & F). exists e', B'. split; [|exact F]. rewrite <- !app_assoc. simpl. apply W_body; assumption.
    - intros p i c u s T HT IH TE NC P A v B E N. destruct (IH TE (OB _ _ _ _ _ _ _ _ HT E N P) A v B E N) as ([|] & B' & H & F).
      + exists true, (B' ++ rdU p UUpd (atoms u) ++ [U p UUpd true i]). split; [|apply fr_app; [exact F|apply fr_app; [apply fr_rdU; exact P|apply fr_cons; [exact P|apply fr_nil]]]].
        replace (A ++ v :: B' ++ rdU p UUpd (atoms u) ++ [U p UUpd true i]) with ((A ++ v :: B') ++ rdU p UUpd (atoms u) ++ U p UUpd true i :: []) by (rewrite <- app_assoc; reflexivity).
        apply W_body; [exact H|apply W_leave].
      + exists false, B'. split; [apply W_lstop; exact H|exact F].
  Qed.
End Avoid.

(** In the users graph nothing in a loop body post-dominates anything outside. *)
Theorem graph_pdom I p pd : pd_graph p pd -> testS p = true -> pdomS I pd [] 0 p.
Proof.
  intros G TE.
  assert (K: forall q0 u v, (exists pl, q0 = Body :: pl) -> within q0 (u_at u) -> ~ within q0 (u_at v) -> pd u v = true -> False).
  { intros q0 u v HB Hu Hv Hp. destruct (G u v Hp) as ((A & B & e & H) & ALL).
    assert (P0: ~ within q0 []). { destruct HB as (pl & ->). intros Q. apply within_len in Q. simpl in Q. lia. }
    destruct (proj1 (proj2 (resume_all q0 HB)) _ _ _ _ _ H TE P0 A v B eq_refl Hv) as (e' & B' & H' & F).
    apply (F u); [|exact Hu]. apply (ALL A B'). exists e'. exact H'. }
  assert (GEN: (forall n p, pdomN I pd p n) /\ (forall s q k, pdomS I pd q k s) /\ (forall b p k, pdomB I pd p k b)).
  { apply ir_mind; try (intros; exact Logic.I).
    - intros s H q. apply H.
    - intros b H q. apply H.
    - intros s H q. apply H.
    - intros k i init c u s H q. split; [|apply H]. intros a b Ha Hb Hp. elim (K (Body :: q) a b); eauto.
    - intros n Hn a r Hr q k. split; [apply Hn|apply Hr].
    - intros c s Hs r Hr q k. split; [apply Hs|apply Hr]. }
  apply GEN.
Qed.
