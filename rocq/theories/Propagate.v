(** * SymbolPropagation (passes/symbolic/symbol_propagation.cpp) *)
From Coq Require Import ZArith List Bool String Lia.
From Verif Require Import Sym SymFacts SymFuns SymProofs1 IR IRFacts Users Reach ReachProofs UserGraph SerialProofs.
From Verif Require PassInline GraphProps Skew.
Import ListNotations.
Local Open Scope string_scope.
Local Open Scope list_scope.
Local Open Scope Z_scope.

(** inverse, symbol_propagation.cpp:22-58: only the first two arguments are looked at *)
Definition inverse (x : string) (e : expr) : option expr :=
  if negb (uses e x) then None
  else match e with
       | EAdd (a :: b :: _) =>
           let '(a, b) := if expr_eqb a (ESym x) then (a, b) else (b, a) in
           if negb (expr_eqb a (ESym x)) then None else match b with EInt _ => Some (ssub (ESym x) b) | _ => None end
       | EMul (a :: b :: _) =>
           let '(a, b) := if expr_eqb a (ESym x) then (a, b) else (b, a) in
           if negb (expr_eqb a (ESym x)) then None else match b with EInt _ => sym_div (ESym x) b | _ => None end
       | _ => None
       end.

(** ** Replacing the reads of [x] made by one user (lines 306-430) *)
Section Replace.
  Variable x : string.      (* lhs *)
  Variable e : expr.        (* rhs_modified; symbolic::simplify of it is left out (C03) *)
  Variable r : user.        (* the read *)
  Definition hit (p : path) (el : uel) : bool := is_u (U p el false x) r.
  Definition sub_e (f : expr) : expr := subs f x e.
  Definition sub_c (c : cond) : cond := csubs c x e.
  (** memlets, lines 330-343; access nodes, 344-398: a symbol or a constant only *)
  Definition sub_in (o : operand) : operand :=
    match o with
    | OConst z => OConst z
    | ORead y [] => if String.eqb y x then match e with ESym z => ORead z [] | EInt k => OConst k | _ => o end else o
    | ORead y l => ORead y (map sub_e l)
    end.
  Definition sub_op (o : op) : op := {| o_code := o_code o; o_ins := map sub_in (o_ins o); o_out := o_out o; o_sub := map sub_e (o_sub o) |}.
  Definition when (b : bool) {A} (f : A -> A) (a : A) : A := if b then f a else a.
  Fixpoint prop_blk (p : path) (j : nat) (b : block) : block :=
    match b with [] => [] | o :: b' => when (hit p (UOp j)) sub_op o :: prop_blk p (S j) b' end.
  Definition prop_asg (p : path) (a : assigns) : assigns := when (hit p UAsg) (map (fun ye => (fst ye, sub_e (snd ye)))) a.
  Fixpoint propN (p : path) (n : node) : node :=
    match n with
    | NBlock b => NBlock (prop_blk p 0 b)
    | NSeq s => NSeq (propS p 0 s)
    | NIf bs => NIf (propB p 0 bs)
    | NWhile s => NWhile (propS (Body :: p) 0 s)
    | NLoop k i init c u s =>
        NLoop k i (when (hit p UInit) sub_e init) (when (hit p UTest) sub_c c) (when (hit p UUpd) sub_e u) (propS (Body :: p) 0 s)
    | NBreak => NBreak | NContinue => NContinue | NReturn v => NReturn v
    end
  with propS (q : path) (k : nat) (s : seq) : seq :=
    match s with SNil => SNil | SCons n a t => SCons (propN (Kid k :: q) n) (prop_asg (Kid k :: q) a) (propS q (S k) t) end
  with propB (p : path) (k : nat) (b : brs) : brs :=
    match b with BNil => BNil | BCons c s t => BCons (when (hit p UCond) sub_c c) (propS (Br k :: p) 0 s) (propB p (S k) t) end.
End Replace.

(** The assignments of a program satisfy [A] at their positions. *)
Section Asgs.
  Variable A : path -> string -> expr -> Prop.
  Definition asg_all (p : path) (a : assigns) : Prop := forall y f, In (y, f) a -> A p y f.
  Fixpoint asgN (p : path) (n : node) : Prop :=
    match n with
    | NSeq s => asgS p 0 s
    | NIf bs => asgB p 0 bs
    | NWhile s | NLoop _ _ _ _ _ s => asgS (Body :: p) 0 s
    | _ => True
    end
  with asgS (q : path) (k : nat) (s : seq) : Prop :=
    match s with SNil => True | SCons n a t => asgN (Kid k :: q) n /\ asg_all (Kid k :: q) a /\ asgS q (S k) t end
  with asgB (p : path) (k : nat) (b : brs) : Prop :=
    match b with BNil => True | BCons c s t => asgS (Br k :: p) 0 s /\ asgB p (S k) t end.
End Asgs.

(** ** Simulation, for any invariant of log and store *)
Section Sim.
  Variable I : nat -> list Z -> option Z.
  Variable x : string.
  Variable e : expr.
  Variable r : user.
  Variable A : path -> string -> expr -> Prop.
  Variable cover : utrace -> Prop.
  Variable J : utrace -> store -> Prop.
  Hypothesis J_rd : forall T st u, u_w u = false -> J T st -> J (T ++ [u]) st.
  Hypothesis J_wr : forall T st p el y j v, el <> UAsg -> J T st -> J (T ++ [U p el true y]) (wr st y j v).
  Hypothesis J_asg : forall T st p y f v, A p y f -> eval (env_of st) f = Some v -> J T st -> J (T ++ [U p UAsg true y]) (wr st y [] v).
  Hypothesis J_use : forall T st, J T st -> cover T -> eval (env_of st) e = Some (st x []).
  Definition good (T : utrace) : Prop := forall B C, T = B ++ r :: C -> cover B.

  Lemma J_rds p el l : forall T st, J T st -> J (T ++ rdU p el l) st.
  Proof.
    induction l as [|y l IH]; intros T st H; [rewrite app_nil_r; exact H|]. cbn [rdU map]. change (U p el false y :: map (U p el false) l) with ([U p el false y] ++ rdU p el l).
    rewrite app_assoc. apply IH. apply J_rd; auto.
  Qed.
  Lemma good_left T1 T2 : good (T1 ++ T2) -> good T1.
  Proof. intros H B C E. apply (H B (C ++ T2)). rewrite E, <- app_assoc. reflexivity. Qed.

  Lemma use_at T0 st p el l T : J T0 st -> good (T0 ++ rdU p el l ++ T) -> hit x r p el = true -> In x l -> eval (env_of st) e = Some (st x []).
  Proof.
    intros H G X Hl. apply is_u_eq in X. apply in_split in Hl. destruct Hl as (l1 & l2 & ->).
    eapply J_use; [apply (J_rds p el l1 _ _ H)|]. apply (G _ (rdU p el l2 ++ T)). rewrite <- X. unfold rdU. rewrite map_app. cbn [map]. rewrite <- !app_assoc. reflexivity.
  Qed.
  Lemma sub_same st f : eval (env_of st) e = Some (st x []) -> eval (env_of st) (sub_e x e f) = eval (env_of st) f.
  Proof.
    intros H. apply eval_ev in H. unfold eval, sub_e. rewrite (ev_subs _ _ _ _ _ H). rewrite (ev_agree (upd (env_of st) x (st x [])) (env_of st)); [reflexivity|].
    intros y _. unfold upd, env_of. destruct (String.eqb_spec x y); subst; reflexivity.
  Qed.
  Lemma subc_same st c : eval (env_of st) e = Some (st x []) -> cev (env_of st) (sub_c x e c) = cev (env_of st) c.
  Proof.
    intros H. apply eval_ev in H. unfold sub_c. rewrite (cev_subs _ _ _ _ _ H). apply cev_agree.
    intros y _. unfold upd, env_of. destruct (String.eqb_spec x y); subst; reflexivity.
  Qed.
  Lemma unused f : ~ In x (atoms f) -> sub_e x e f = f.
  Proof. intros H. unfold sub_e. apply subs_unused. destruct (uses f x) eqn:E; auto. apply uses_atoms in E. contradiction. Qed.
  Lemma unusedc c : ~ In x (catoms c) -> sub_c x e c = c.
  Proof. intros H. unfold sub_c. apply csubs_unused. destruct (cuses c x) eqn:E; auto. apply cuses_catoms in E. contradiction. Qed.
  Lemma use_e T0 st p el f T : J T0 st -> good (T0 ++ rdU p el (atoms f) ++ T) -> eval (env_of st) (when (hit x r p el) (sub_e x e) f) = eval (env_of st) f.
  Proof.
    intros H G. unfold when. destruct (hit x r p el) eqn:X; [|reflexivity]. destruct (in_dec string_dec x (atoms f)) as [Y|N]; [|rewrite unused; auto].
    apply sub_same. eapply use_at; eauto.
  Qed.
  Lemma use_c T0 st p el c T : J T0 st -> good (T0 ++ rdU p el (catoms c) ++ T) -> cev (env_of st) (when (hit x r p el) (sub_c x e) c) = cev (env_of st) c.
  Proof.
    intros H G. unfold when. destruct (hit x r p el) eqn:X; [|reflexivity]. destruct (in_dec string_dec x (catoms c)) as [Y|N]; [|rewrite unusedc; auto].
    apply subc_same. eapply use_at; eauto.
  Qed.
  Lemma subs_evals st l : eval (env_of st) e = Some (st x []) \/ ~ In x (concat (map atoms l)) -> evals (env_of st) (map (sub_e x e) l) = evals (env_of st) l.
  Proof.
    intros H. induction l as [|f l IH]; [reflexivity|]. cbn [map evals]. rewrite IH.
    - assert (Q : eval (env_of st) (sub_e x e f) = eval (env_of st) f); [|rewrite Q; reflexivity].
      destruct H as [H|H]; [apply sub_same; exact H|rewrite unused; auto]. intros K; apply H. cbn [map concat]. apply in_or_app; auto.
    - destruct H as [H|H]; [left; exact H|right]. intros K; apply H. cbn [map concat]. apply in_or_app; auto.
  Qed.
  Lemma sub_read st o : eval (env_of st) e = Some (st x []) \/ ~ In x (opnames o) -> read_in st (sub_in x e o) = read_in st o.
  Proof.
    intros H. destruct o as [z|y [|f l]]; cbn [sub_in]; [reflexivity| |].
    - destruct (String.eqb_spec y x) as [->|N]; [|reflexivity]. destruct H as [H|H]; [|exfalso; apply H; left; reflexivity].
      destruct e; try reflexivity; cbn [read_in evals]; inversion H; subst; reflexivity.
    - change (read_in st (ORead y (map (sub_e x e) (f :: l))) = read_in st (ORead y (f :: l))). cbn [read_in]. rewrite subs_evals; [reflexivity|].
      destruct H as [H|H]; [left; exact H|right]. intros K; apply H. right. exact K.
  Qed.
  Lemma sub_reads st l : eval (env_of st) e = Some (st x []) \/ ~ In x (concat (map opnames l)) -> reads_in st (map (sub_in x e) l) = reads_in st l.
  Proof.
    intros H. induction l as [|o l IH]; [reflexivity|]. cbn [map reads_in]. rewrite IH, sub_read; [reflexivity| |].
    - destruct H as [H|H]; [left; exact H|right]. intros K; apply H. cbn [map concat]. apply in_or_app; auto.
    - destruct H as [H|H]; [left; exact H|right]. intros K; apply H. cbn [map concat]. apply in_or_app; auto.
  Qed.
  Lemma sub_exec st o : eval (env_of st) e = Some (st x []) \/ ~ In x (op_uses o) -> exec_op I st (sub_op x e o) = exec_op I st o.
  Proof.
    intros H. unfold exec_op, sub_op; cbn [o_ins o_sub o_code o_out]. rewrite sub_reads, subs_evals; [reflexivity| |]; destruct H as [H|H]; auto; right; intros K; apply H; unfold op_uses; apply in_or_app; auto.
  Qed.
  Lemma sim_block p b : forall j T0 st st', J T0 st -> good (T0 ++ blkU p j b) -> exec_block I st b = Some st' ->
    exec_block I st (prop_blk x e r p j b) = Some st' /\ J (T0 ++ blkU p j b) st'.
  Proof.
    induction b as [|o b IH]; intros j T0 st st' H G R; cbn [blkU prop_blk exec_block] in *.
    - split; [exact R|]. rewrite app_nil_r. inversion R; subst; exact H.
    - destruct (exec_op I st o) as [st1|] eqn:X; [|discriminate].
      assert (Q : exec_op I st (when (hit x r p (UOp j)) (sub_op x e) o) = Some st1).
      { unfold when. destruct (hit x r p (UOp j)) eqn:Y; [|exact X]. rewrite sub_exec; [exact X|].
        destruct (in_dec string_dec x (op_uses o)) as [L|L]; [left|right; exact L]. unfold opU in G. rewrite <- app_assoc in G. eapply use_at; eauto. }
      rewrite Q. unfold exec_op in X. destruct (reads_in st (o_ins o)); [|discriminate]. destruct (evals (env_of st) (o_sub o)) as [i|]; [|discriminate].
      destruct (I (o_code o) l) as [v|]; [|discriminate]. inversion X; subst st1.
      rewrite app_assoc in G |- *. apply IH; auto. unfold opU. rewrite app_assoc. apply J_wr; [discriminate|]. apply J_rds. exact H.
  Qed.
  Lemma sim_asg p a : forall T0 st st', J T0 st -> good (T0 ++ asgU p a) -> asg_all A p a -> exec_assigns st a = Some st' ->
    exec_assigns st (prop_asg x e r p a) = Some st' /\ J (T0 ++ asgU p a) st'.
  Proof.
    induction a as [|[y f] a IH]; intros T0 st st' H G W R; cbn [exec_assigns] in R.
    - unfold prop_asg, when, asgU. cbn [map concat]. rewrite app_nil_r. inversion R; subst. destruct (hit x r p UAsg); auto.
    - destruct (eval (env_of st) f) as [v|] eqn:E; [|discriminate]. unfold asgU in *. cbn [map concat fst snd] in *. fold (asgU p a) in *.
      assert (Q : exec_assigns st (prop_asg x e r p ((y, f) :: a)) = exec_assigns (wr st y [] v) (prop_asg x e r p a)).
      { rewrite <- !app_assoc in G. pose proof (use_e T0 st p UAsg f _ H G) as Q. unfold prop_asg, when in *. destruct (hit x r p UAsg); cbn [map exec_assigns fst snd]; [rewrite Q|]; rewrite E; reflexivity. }
      rewrite Q. rewrite app_assoc in G |- *. apply IH; auto.
      + rewrite app_assoc. apply (J_asg _ _ _ _ f); auto; [apply W; left; reflexivity|]. apply J_rds; exact H.
      + intros y' f' K. apply W. right; exact K.
  Qed.

  Lemma sim :
    (forall p n st o st' T, runU I p n st o st' T -> forall T0, J T0 st -> good (T0 ++ T) -> asgN A p n -> run I (propN x e r p n) st o st' /\ J (T0 ++ T) st') /\
    (forall q k s st o st' T, runsU I q k s st o st' T -> forall T0, J T0 st -> good (T0 ++ T) -> asgS A q k s -> runs I (propS x e r q k s) st o st' /\ J (T0 ++ T) st') /\
    (forall p k b st o st' T, runbU I p k b st o st' T -> forall T0, J T0 st -> good (T0 ++ T) -> asgB A p k b -> runb I (propB x e r p k b) st o st' /\ J (T0 ++ T) st') /\
    (forall p s st o st' T, runwU I p s st o st' T -> forall T0, J T0 st -> good (T0 ++ T) -> asgS A (Body :: p) 0 s -> runw I (propS x e r (Body :: p) 0 s) st o st' /\ J (T0 ++ T) st') /\
    (forall p i c u s st o st' T, runlU I p i c u s st o st' T -> forall T0, J T0 st -> good (T0 ++ T) -> asgS A (Body :: p) 0 s ->
       runl I i (when (hit x r p UTest) (sub_c x e) c) (when (hit x r p UUpd) (sub_e x e) u) (propS x e r (Body :: p) 0 s) st o st' /\ J (T0 ++ T) st').
  Proof.
    apply runU_mind; intros.
    - cbn [propN]. destruct (sim_block p b 0 T0 st st' H0 H1 H) as [Q1 Q2]. split; [apply R_block; exact Q1|exact Q2].
    - cbn [propN asgN] in *. destruct (H0 T0 H1 H2 H3) as [Q1 Q2]. split; [apply R_seq; exact Q1|exact Q2].
    - cbn [propN asgN] in *. destruct (H0 T0 H1 H2 H3) as [Q1 Q2]. split; [apply R_if; exact Q1|exact Q2].
    - cbn [propN asgN] in *. destruct (H0 T0 H1 H2 H3) as [Q1 Q2]. split; [apply R_while; exact Q1|exact Q2].
    - cbn [propN asgN] in *. pose proof (use_e T0 st p UInit init _ H2 H3) as Q.
      assert (E3 : T0 ++ rdU p UInit (atoms init) ++ U p UInit true i :: T = ((T0 ++ rdU p UInit (atoms init)) ++ [U p UInit true i]) ++ T) by (rewrite <- !app_assoc; reflexivity).
      rewrite E3 in *. destruct (H1 ((T0 ++ rdU p UInit (atoms init)) ++ [U p UInit true i])) as [Q1 Q2]; auto; [apply J_wr; [discriminate|]; apply J_rds; exact H2|].
      split; [eapply R_loop; [rewrite Q; exact H|exact Q1]|exact Q2].
    - rewrite app_nil_r. split; [constructor|auto].
    - rewrite app_nil_r. split; [constructor|auto].
    - split; [constructor|]. apply J_rd; auto.
    - rewrite app_nil_r. split; [constructor|auto].
    - cbn [propS asgS] in *. destruct H6 as (W1 & W2 & W3). destruct (H0 T0) as [Q1 Q2]; auto; [rewrite app_assoc in H5; eapply good_left; exact H5|].
      destruct (sim_asg (Kid k :: q) a (T0 ++ T1) st1 st2) as [Q3 Q4]; auto; [rewrite !app_assoc in H5; rewrite <- app_assoc; eapply good_left; rewrite <- !app_assoc in H5 |- *; exact H5|].
      destruct (H3 ((T0 ++ T1) ++ asgU (Kid k :: q) a)) as [Q5 Q6]; auto; [rewrite <- !app_assoc; exact H5|].
      split; [eapply R_cons; eassumption|rewrite <- !app_assoc in Q6; exact Q6].
    - cbn [propS asgS] in *. destruct H4 as (W1 & _). destruct (H0 T0) as [Q1 Q2]; auto. split; [apply R_exit; assumption|exact Q2].
    - rewrite app_nil_r. split; [constructor|auto].
    - cbn [propB asgB] in *. destruct H4 as (W1 & _). pose proof (use_c _ _ _ _ _ _ H2 H3) as Q. rewrite app_assoc in H3 |- *. destruct (H1 (T0 ++ rdU p UCond (catoms c))) as [Q1 Q2]; auto; [apply J_rds; exact H2|].
      split; [apply R_btrue; [rewrite Q; exact H|exact Q1]|exact Q2].
    - cbn [propB asgB] in *. destruct H4 as (_ & W1). pose proof (use_c _ _ _ _ _ _ H2 H3) as Q. rewrite app_assoc in H3 |- *. destruct (H1 (T0 ++ rdU p UCond (catoms c))) as [Q1 Q2]; auto; [apply J_rds; exact H2|].
      split; [apply R_bfalse; [rewrite Q; exact H|exact Q1]|exact Q2].
    - rewrite app_assoc in H5 |- *. destruct (H0 T0) as [Q1 Q2]; auto; [eapply good_left; exact H5|]. destruct (H3 (T0 ++ T1)) as [Q3 Q4]; auto. split; [eapply R_wnext; eassumption|exact Q4].
    - destruct (H0 T0) as [Q1 Q2]; auto. split; [apply R_wbreak; exact Q1|exact Q2].
    - destruct (H0 T0) as [Q1 Q2]; auto. split; [apply R_wret; exact Q1|exact Q2].
    - rewrite <- (app_nil_r (rdU p UTest (catoms c))) in H1. pose proof (use_c _ _ _ _ _ _ H0 H1) as Q. split; [apply R_lend; rewrite Q; exact H|apply J_rds; exact H0].
    - pose proof (use_c _ _ _ _ _ _ H6 H7) as Q. rewrite app_assoc in H7 |- *. destruct (H1 (T0 ++ rdU p UTest (catoms c))) as [Q1 Q2]; auto; [apply J_rds; exact H6|rewrite app_assoc in H7; eapply good_left; exact H7|].
      rewrite app_assoc in H7 |- *. pose proof (use_e _ _ _ _ _ _ Q2 H7) as Q'.
      assert (E3 : forall X : utrace, X ++ rdU p UUpd (atoms u) ++ U p UUpd true i :: T2 = ((X ++ rdU p UUpd (atoms u)) ++ [U p UUpd true i]) ++ T2) by (intros X; rewrite <- !app_assoc; reflexivity).
      rewrite E3 in H7 |- *. destruct (H5 ((((T0 ++ rdU p UTest (catoms c)) ++ T1) ++ rdU p UUpd (atoms u)) ++ [U p UUpd true i])) as [Q3 Q4]; auto; [apply J_wr; [discriminate|]; apply J_rds; exact Q2|].
      split; [eapply R_lnext; [rewrite Q; exact H|exact Q1|exact H2|rewrite Q'; exact H3|exact Q3]|exact Q4].
    - pose proof (use_c _ _ _ _ _ _ H2 H3) as Q. rewrite app_assoc in H3 |- *. destruct (H1 (T0 ++ rdU p UTest (catoms c))) as [Q1 Q2]; auto; [apply J_rds; exact H2|].
      split; [eapply R_lbreak; [rewrite Q; exact H|exact Q1]|exact Q2].
    - pose proof (use_c _ _ _ _ _ _ H2 H3) as Q. rewrite app_assoc in H3 |- *. destruct (H1 (T0 ++ rdU p UTest (catoms c))) as [Q1 Q2]; auto; [apply J_rds; exact H2|].
      split; [eapply R_lret; [rewrite Q; exact H|exact Q1]|exact Q2].
  Qed.
End Sim.

(** ** The write [w] of [x] still describes [x] *)
Definition writes (l : list string) (u : user) : Prop := u_w u = true /\ In (u_x u) l.
Definition clear_of (l : list string) (T : utrace) : Prop := forall u, In u T -> ~ writes l u.
(** After [T] the last write of [x] is [w], and nothing in [l] has been written since. *)
Definition covered (w : user) (x : string) (l : list string) (T : utrace) : Prop :=
  exists T1 T2, T = T1 ++ w :: T2 /\ clear_of (x :: l) T2.
(** The same with one intervening write [m] of one of [l]. *)
Definition covered_mod (w m : user) (x : string) (l : list string) (T : utrace) : Prop :=
  exists T1 T2 T3, T = T1 ++ w :: T2 ++ m :: T3 /\ clear_of (x :: l) (T2 ++ T3).

Lemma snoc_inv {A} (T T1 T2 : list A) u w : T ++ [u] = T1 ++ w :: T2 -> (T2 = [] /\ u = w /\ T = T1) \/ (exists T3, T2 = T3 ++ [u] /\ T = T1 ++ w :: T3).
Proof.
  intros E. destruct (@exists_last _ (w :: T2)) as (L & z & Q); [discriminate|]. rewrite Q, app_assoc in E. apply app_inj_tail in E as [E ->].
  destruct L as [|w' L]; simpl in Q.
  - left. inversion Q; subst. rewrite app_nil_r. auto.
  - right. inversion Q; subst. exists L. auto.
Qed.
Lemma clear_snoc l T u : clear_of l (T ++ [u]) -> clear_of l T /\ ~ writes l u.
Proof. intros H; split; [intros v Hv; apply H, in_or_app; auto|apply H, in_or_app; right; left; reflexivity]. Qed.

Section Inv.
  Variables (x : string) (rhs : expr) (pw : path).
  Hypothesis fresh : ~ In x (atoms rhs).
  Let w := U pw UAsg true x.
  Definition is_def (p : path) (y : string) (f : expr) : Prop := p = pw -> y = x -> f = rhs.
  Definition J1 (T : utrace) (st : store) : Prop := covered w x (atoms rhs) T -> eval (env_of st) rhs = Some (st x []).

  Lemma J1_rd T st u : u_w u = false -> J1 T st -> J1 (T ++ [u]) st.
  Proof.
    intros N H (T1 & T2 & E & C). apply H. apply snoc_inv in E as [(-> & E & ->)|(T3 & -> & ->)]; [rewrite E in N; discriminate|].
    exists T1, T3. split; auto. apply clear_snoc in C. tauto.
  Qed.
  Lemma J1_other T st u y j v : u_w u = true -> u_x u = y -> u <> w -> J1 T st -> J1 (T ++ [u]) (wr st y j v).
  Proof.
    intros WU XU N H (T1 & T2 & E & C). apply snoc_inv in E as [(-> & E & ->)|(T3 & -> & ->)]; [congruence|].
    apply clear_snoc in C as [C NW].
    assert (NX : y <> x /\ ~ In y (atoms rhs)). { split; intros Q; apply NW; split; auto; rewrite XU; [left; auto|right; exact Q]. }
    destruct NX as [NX NA]. specialize (H (ex_intro _ T1 (ex_intro _ T3 (conj eq_refl C)))).
    rewrite wr_other by (left; auto). rewrite <- H. unfold eval. rewrite (ev_agree (env_of (wr st y j v)) (env_of st)); [reflexivity|].
    intros z Hz. unfold env_of. apply wr_other. left. congruence.
  Qed.
  Lemma J1_wr T st p el y j v : el <> UAsg -> J1 T st -> J1 (T ++ [U p el true y]) (wr st y j v).
  Proof. intros N. apply J1_other; auto. intros Q; inversion Q; congruence. Qed.
  Lemma J1_asg T st p y f v : is_def p y f -> eval (env_of st) f = Some v -> J1 T st -> J1 (T ++ [U p UAsg true y]) (wr st y [] v).
  Proof.
    intros D E H. destruct (user_dec (U p UAsg true y) w) as [Q|N]; [|apply J1_other; auto].
    inversion Q; subst. rewrite (D eq_refl eq_refl) in E. intros _. rewrite wr_same. rewrite <- E. unfold eval.
    rewrite (ev_agree (env_of (wr st x [] v)) (env_of st)); [reflexivity|]. intros z Hz. unfold env_of. apply wr_other. left. congruence.
  Qed.
  Lemma J1_start st : J1 [] st.
  Proof. intros (T1 & T2 & E & _). destruct T1; discriminate. Qed.

  (** One symbol [s] of [rhs] is changed in between, by [s = g] at [pm]; [i] undoes it. *)
  Variables (s : string) (g i : expr) (pm : path).
  Hypothesis only : forall y, In y (atoms g) -> y = s.
  Hypothesis onlyi : forall y, In y (atoms i) -> y = s.
  Hypothesis neq : s <> x.
  Hypothesis undo : forall (b : env) v, eval b g = Some v -> eval (upd b s v) i = Some (b s).
  Let m := U pm UAsg true s.
  Definition is_def2 (p : path) (y : string) (f : expr) : Prop := is_def p y f /\ (p = pm -> y = s -> f = g).
  Definition J2 (T : utrace) (st : store) : Prop := J1 T st /\ (covered_mod w m x (atoms rhs) T -> eval (env_of st) (subs rhs s i) = Some (st x [])).

  Lemma atoms_subs_in y f : In y (atoms (subs f s i)) -> In y (atoms f) \/ In y (atoms i).
  Proof.
    intros K. destruct (PassInline.atoms_subs _ _ _ _ K) as [[K1 _]|K1]; auto.
  Qed.
  Lemma J2_rd T st u : u_w u = false -> J2 T st -> J2 (T ++ [u]) st.
  Proof.
    intros N [H1 H2]. split; [apply J1_rd; auto|]. intros (T1 & T2 & T3 & E & C). apply H2.
    rewrite app_comm_cons, app_assoc in E. apply snoc_inv in E as [(-> & E & _)|(T4 & -> & ->)]; [rewrite E in N; discriminate|].
    exists T1, T2, T4. split; [rewrite <- app_assoc; reflexivity|]. rewrite app_assoc in C. apply clear_snoc in C. tauto.
  Qed.
  Lemma J2_other T st u y j v : u_w u = true -> u_x u = y -> u <> w -> u <> m -> J2 T st -> J2 (T ++ [u]) (wr st y j v).
  Proof.
    intros WU XU N NM [H1 H2]. split; [apply J1_other; auto|]. intros (T1 & T2 & T3 & E & C).
    rewrite app_comm_cons, app_assoc in E. apply snoc_inv in E as [(-> & E & _)|(T4 & -> & ->)]; [congruence|].
    rewrite app_assoc in C. apply clear_snoc in C as [C NW].
    assert (NX : y <> x /\ ~ In y (atoms rhs)). { split; intros Q; apply NW; split; auto; rewrite XU; [left; auto|right; exact Q]. }
    destruct NX as [NX NA].
    assert (CM : covered_mod w m x (atoms rhs) ((T1 ++ w :: T2) ++ m :: T4)) by (exists T1, T2, T4; split; [rewrite <- app_assoc; reflexivity|exact C]).
    specialize (H2 CM). rewrite wr_other by (left; auto). rewrite <- H2.
    destruct (in_dec string_dec s (atoms rhs)) as [SI|SI].
    - unfold eval. rewrite (ev_agree (env_of (wr st y j v)) (env_of st)); [reflexivity|]. intros z Hz. unfold env_of. apply wr_other. left.
      apply atoms_subs_in in Hz as [Hz|Hz]; [congruence|]. apply onlyi in Hz. subst z. intros Q; subst s. contradiction.
    - rewrite subs_unused by (destruct (uses rhs s) eqn:U1; auto; apply uses_atoms in U1; contradiction).
      unfold eval. rewrite (ev_agree (env_of (wr st y j v)) (env_of st)); [reflexivity|]. intros z Hz. unfold env_of. apply wr_other. left. congruence.
  Qed.
  Lemma J2_wr T st p el y j v : el <> UAsg -> J2 T st -> J2 (T ++ [U p el true y]) (wr st y j v).
  Proof. intros N. apply J2_other; auto; intros Q; inversion Q; congruence. Qed.
  Lemma J2_asg T st p y f v : is_def2 p y f -> eval (env_of st) f = Some v -> J2 T st -> J2 (T ++ [U p UAsg true y]) (wr st y [] v).
  Proof.
    intros [D D2] E H. destruct (user_dec (U p UAsg true y) m) as [Q|NM].
    - destruct H as [H1 H2]. split; [apply (J1_asg _ _ _ _ f); auto|]. inversion Q; subst. rewrite (D2 eq_refl eq_refl) in E.
      intros (T1 & T2 & T3 & E3 & C). rewrite app_comm_cons, app_assoc in E3. apply snoc_inv in E3 as [(-> & _ & ->)|(T4 & -> & ->)].
      + rewrite app_nil_r in C. specialize (H1 (ex_intro _ T1 (ex_intro _ T2 (conj eq_refl C)))).
        rewrite wr_other by (left; auto). rewrite <- H1. unfold eval.
        assert (EU : forall b, (forall z, b z = upd (env_of st) s v z) -> eval b i = Some (env_of st s)).
        { intros b Hb. rewrite <- (undo (env_of st) v E). unfold eval. rewrite (ev_agree b (upd (env_of st) s v)); [reflexivity|]. intros z _. apply Hb. }
        assert (W : forall z, env_of (wr st s [] v) z = upd (env_of st) s v z).
        { intros z. unfold env_of, upd, wr. destruct (String.eqb_spec s z); simpl; auto. }
        specialize (EU _ W). apply eval_ev in EU. rewrite (ev_subs _ _ _ _ _ EU). rewrite (ev_agree _ (env_of st)); [reflexivity|].
        intros z _. unfold upd at 1. destruct (String.eqb_spec s z); [subst; reflexivity|]. rewrite W. unfold upd. destruct (String.eqb_spec s z); [contradiction|reflexivity].
      + rewrite app_assoc in C. apply clear_snoc in C as [C NW].
        assert (NA : ~ In s (atoms rhs)) by (intros Q'; apply NW; split; [reflexivity|right; exact Q']).
        specialize (H2 (ex_intro _ T1 (ex_intro _ T2 (ex_intro _ T4 (conj (eq_sym (app_assoc _ _ _)) C))))).
        rewrite wr_other by (left; auto). rewrite <- H2. rewrite !subs_unused by (destruct (uses rhs s) eqn:U1; auto; apply uses_atoms in U1; contradiction).
        unfold eval. rewrite (ev_agree (env_of (wr st s [] v)) (env_of st)); [reflexivity|]. intros z Hz. unfold env_of. apply wr_other. left. congruence.
    - destruct (user_dec (U p UAsg true y) w) as [Q|N]; [|apply J2_other; auto].
      destruct H as [H1 H2]. split; [apply (J1_asg _ _ _ _ f); auto|]. intros (T1 & T2 & T3 & E3 & C).
      rewrite app_comm_cons, app_assoc in E3. apply snoc_inv in E3 as [(-> & Q3 & _)|(T4 & -> & ->)]; [contradiction|].
      exfalso. apply (C (U p UAsg true y)); [rewrite app_assoc; apply in_or_app; right; left; reflexivity|]. rewrite Q. split; [reflexivity|left; reflexivity].
  Qed.
  Lemma J2_start st : J2 [] st.
  Proof. split; [apply J1_start|]. intros (T1 & T2 & T3 & E & _). destruct T1; discriminate. Qed.
End Inv.

(** ** Dominance in the users graph holds of executions *)
(** DominanceAnalysis::dominates, dominance_analysis.cpp:18-28: [dm u v] only if every path
    from the source to [v] passes [u] first. *)
Definition dom_graph (p : seq) (dm : user -> user -> bool) : Prop :=
  forall u v, dm u v = true -> forall A B, walk p (A ++ v :: B) -> In u A.
(** no [continue] *)
Fixpoint ncN (n : node) : bool :=
  match n with NContinue => false | NSeq s | NWhile s | NLoop _ _ _ _ _ s => ncS s | NIf bs => ncB bs | _ => true end
with ncS (s : seq) : bool := match s with SNil => true | SCons n _ r => ncN n && ncS r end
with ncB (b : brs) : bool := match b with BNil => true | BCons _ s r => ncS s && ncB r end.

Definition wsub (T' T : utrace) : Prop := forall u, In u T' -> u_w u = true -> In u T.
Lemma wsub_nil T : wsub [] T. Proof. intros u []. Qed.
Lemma wsub_app A B T : wsub A T -> wsub B T -> wsub (A ++ B) T.
Proof. intros H K u Hu W. apply in_app_or in Hu as [Hu|Hu]; auto. Qed.
Lemma wsub_left A T1 T2 : wsub A T1 -> wsub A (T1 ++ T2).
Proof. intros H u Hu W. apply in_or_app; left; auto. Qed.
Lemma wsub_right A T1 T2 : wsub A T2 -> wsub A (T1 ++ T2).
Proof. intros H u Hu W. apply in_or_app; right; auto. Qed.
Lemma wsub_rd p e l T : wsub (rdU p e l) T.
Proof. intros u Hu W. apply in_map_iff in Hu as (y & <- & _). discriminate. Qed.
Lemma wsub_refl T : wsub T T. Proof. intros u Hu _; exact Hu. Qed.
Lemma wsub_asg p a : wsub (asgW p a) (asgU p a).
Proof.
  intros u Hu W. unfold asgW in Hu. apply in_app_or in Hu as [Hu|Hu]; [apply in_map_iff in Hu as (y & <- & _); discriminate|].
  apply in_map_iff in Hu as (y & <- & Hy). apply in_map_iff in Hy as ((y' & f) & <- & Hy). unfold asgU. apply in_concat. exists (rdU p UAsg (atoms f) ++ [U p UAsg true y']).
  split; [apply in_map_iff; exists (y', f); auto|]. apply in_or_app; right; left; reflexivity.
Qed.

Lemma some_walk :
  (forall n p, testN n = true -> exists e T, wlkN p n e T) /\
  (forall s q k, testS s = true -> exists e T, wlkS q k s e T) /\
  (forall b p, testB b = true -> b = BNil \/ exists s e T, branch b 0 = Some s /\ wlkS (Br 0 :: p) 0 s e T).
Proof.
  apply ir_mind.
  - intros b p _. eexists _, _. apply W_block.
  - intros s IH p T. destruct (IH p 0%nat T) as (e & X & H). eexists _, _. apply W_seq; exact H.
  - intros b IH p T. destruct (IH p T) as [->|(s & e & X & E & H)]; [eexists _, _; apply W_skip; reflexivity|]. eexists _, _. eapply W_branch; eassumption.
  - intros s IH p T. eexists _, _. apply W_while, W_empty.
  - intros k i init c u s IH p T. simpl in T. apply andb_true_iff in T as [T _].
    eexists _, _. apply W_loop, W_out; [destruct (catoms c); discriminate|apply W_leave].
  - intros p _. eexists _, _. apply W_break.
  - intros p _. eexists _, _. apply W_continue.
  - intros r p _. eexists _, _. apply W_return.
  - intros q k _. eexists _, _. apply W_nil.
  - intros n IH a r IH2 q k T. simpl in T. apply andb_true_iff in T as [T1 T2]. destruct (IH (Kid k :: q) T1) as ([|] & X & H).
    + destruct (IH2 q (S k) T2) as (e & Y & K). eexists _, _. eapply W_cons; eassumption.
    + eexists _, _. apply W_stop; exact H.
  - intros p _. left; reflexivity.
  - intros c s IH r _ p T. simpl in T. apply andb_true_iff in T as [T1 T2]. right. destruct (IH (Br 0 :: p) 0%nat T1) as (e & X & H). exists s, e, X. auto.
Qed.

Lemma norm_walk I :
  (forall p n st o st' T, runU I p n st o st' T -> o = ONorm -> testN n = true -> exists T', wlkN p n true T' /\ wsub T' T) /\
  (forall q k s st o st' T, runsU I q k s st o st' T -> o = ONorm -> testS s = true -> exists T', wlkS q k s true T' /\ wsub T' T) /\
  (forall p k b st o st' T, runbU I p k b st o st' T -> o = ONorm -> testB b = true ->
     (exists j s T', branch b j = Some s /\ wlkS (Br (k + j) :: p) 0 s true T' /\ wsub T' T) \/ (forall c, In c (bconds b) -> cev (env_of st) c = Some false)) /\
  (forall p s st o st' T, runwU I p s st o st' T -> True) /\
  (forall p i c u s st o st' T, runlU I p i c u s st o st' T -> True).
Proof.
  apply runU_mind; try (intros; exact Logic.I); try (intros; discriminate).
  - intros p b st st' _ _ _. eexists. split; [apply W_block|apply wsub_refl].
  - intros p s st o st' T _ IH O TE. destruct (IH O TE) as (X & H1 & H2). exists X. split; [apply W_seq; exact H1|exact H2].
  - intros p bs st o st' T R IH O TE. destruct (IH O TE) as [(j & s & X & E & H1 & H2)|N].
    + eexists. split; [eapply W_branch; [exact E|exact H1]|]. apply wsub_app; [apply wsub_rd|exact H2].
    + destruct (complete bs) eqn:C; [elim (complete_taken _ _ C N)|]. eexists. split; [apply W_skip; exact C|apply wsub_rd].
  - intros p s st o st' T _ _ O TE. eexists. split; [apply W_while, W_empty|apply wsub_nil].
  - intros p k i init c u s st v o st' T E R _ O TE. simpl in TE. apply andb_true_iff in TE as [TE _].
    eexists. split; [apply W_loop, W_out; [destruct (catoms c); discriminate|apply W_leave]|].
    apply wsub_app; [apply wsub_rd|]. intros z [<-|Hz] W; [apply in_or_app; right; left; reflexivity|]. rewrite app_nil_r in Hz. exfalso. exact (wsub_rd p UTest (catoms c) [] z Hz W).
  - intros q k st _ _. exists []. split; [apply W_nil|apply wsub_nil].
  - intros q k n a r st st1 st2 o st' T1 T2 R1 IH1 EA R2 IH2 O TE. simpl in TE. apply andb_true_iff in TE as [TE1 TE2].
    destruct (IH1 eq_refl TE1) as (X1 & H1 & K1). destruct (IH2 O TE2) as (X2 & H2 & K2). eexists. split; [eapply W_cons; eassumption|].
    apply wsub_app; [apply wsub_left; exact K1|]. apply wsub_right. apply wsub_app; [apply wsub_left, wsub_asg|apply wsub_right; exact K2].
  - intros q k n a r st o st' T R IH N O. contradiction.
  - intros p k st _ _. right. intros c [].
  - intros p k c s r st o st' T E R IH O TE. simpl in TE. apply andb_true_iff in TE as [TE1 TE2]. destruct (IH O TE1) as (X & H & K).
    left. exists 0%nat, s, X. split; [reflexivity|]. rewrite Nat.add_0_r. split; [exact H|apply wsub_right; exact K].
  - intros p k c s r st o st' T E R IH O TE. simpl in TE. apply andb_true_iff in TE as [TE1 TE2]. destruct (IH O TE2) as [(j & s' & X & B & H & K)|N].
    + left. exists (S j), s', X. split; [exact B|]. rewrite Nat.add_succ_r. split; [exact H|apply wsub_right; exact K].
    + right. intros c' [<-|Hc]; auto.
Qed.

Lemma nc_out I :
  (forall n st o st', run I n st o st' -> ncN n = true -> o <> OCont) /\
  (forall s st o st', runs I s st o st' -> ncS s = true -> o <> OCont) /\
  (forall b st o st', runb I b st o st' -> ncB b = true -> o <> OCont) /\
  (forall s st o st', runw I s st o st' -> o <> OCont) /\
  (forall i c u s st o st', runl I i c u s st o st' -> o <> OCont).
Proof.
  apply run_mind; intros; try discriminate; auto; try (cbn [ncN ncS ncB] in *; try discriminate; repeat match goal with H : (_ && _)%bool = true |- _ => apply andb_true_iff in H as [? ?] end; auto; fail).
Qed.

Lemma first_walk p bs : testB bs = true -> exists e T, wlkN p (NIf bs) e (rdU p UCond (concat (map catoms (bconds bs))) ++ T).
Proof.
  intros T. destruct (proj2 (proj2 some_walk) bs p T) as [->|(s & e & X & E & H)].
  - exists true, []. rewrite app_nil_r. apply W_skip. reflexivity.
  - exists e, X. eapply W_branch; eassumption.
Qed.

Definition reached (W : bool -> utrace -> Prop) (T : utrace) (nc : bool) : Prop :=
  forall A v B, T = A ++ v :: B -> u_w v = false -> (u_el v = UUpd -> nc = true) -> exists e A' B', W e (A' ++ v :: B') /\ wsub A' A.
Lemma reach I :
  (forall p n st o st' T, runU I p n st o st' T -> testN n = true -> reached (wlkN p n) T (ncN n)) /\
  (forall q k s st o st' T, runsU I q k s st o st' T -> testS s = true -> reached (wlkS q k s) T (ncS s)) /\
  (forall p k b st o st' T, runbU I p k b st o st' T -> testB b = true ->
     forall A v B, T = A ++ v :: B -> u_w v = false -> (u_el v = UUpd -> ncB b = true) ->
       In v (rdU p UCond (concat (map catoms (bconds b)))) \/
       exists j s e A' B', branch b j = Some s /\ wlkS (Br (k + j) :: p) 0 s e (A' ++ v :: B') /\ wsub A' A) /\
  (forall p s st o st' T, runwU I p s st o st' T -> testS s = true -> reached (wlkW p s) T (ncS s)) /\
  (forall p i c u s st o st' T, runlU I p i c u s st o st' T -> testS s = true -> catoms c <> [] ->
     forall A v B, T = A ++ v :: B -> u_w v = false -> (u_el v = UUpd -> ncS s = true) ->
       exists e A' B' X, wlkL p i c u s e X /\ rdU p UTest (catoms c) ++ X = A' ++ v :: B' /\ wsub A' A).
Proof.
  assert (BODY : forall p i c u s A v B T1, reached (wlkS (Body :: p) 0 s) T1 (ncS s) -> T1 = A ++ v :: B -> u_w v = false -> (u_el v = UUpd -> ncS s = true) ->
     forall A0, wsub A A0 -> exists e A' B' X, wlkL p i c u s e X /\ rdU p UTest (catoms c) ++ X = A' ++ v :: B' /\ wsub A' A0).
  { intros p i c u s A v B T1 H E N NC A0 K. destruct (H A v B E N NC) as ([|] & A' & B' & W & S1).
    - eexists true, _, _, _. split; [apply W_body; [exact W|apply W_leave]|]. split; [rewrite <- app_assoc; cbn [app]; rewrite app_assoc; reflexivity|].
      apply wsub_app; [apply wsub_rd|]. intros z Hz Wz. apply K; auto.
    - eexists false, _, _, _. split; [apply W_lstop; exact W|]. split; [rewrite app_assoc; reflexivity|].
      apply wsub_app; [apply wsub_rd|]. intros z Hz Wz. apply K; auto. }
  assert (TEST : forall p i c u s A v B, catoms c <> [] -> rdU p UTest (catoms c) = A ++ v :: B ->
     exists e A' B' X, wlkL p i c u s e X /\ rdU p UTest (catoms c) ++ X = A' ++ v :: B' /\ wsub A' A).
  { intros p i c u s A v B C E. exists true, A, B, []. split; [apply W_out; [exact C|apply W_leave]|]. rewrite app_nil_r. split; [exact E|apply wsub_refl]. }
  apply runU_mind.
  - intros p b st st' R _ A v B E N NC. exists true, A, B. rewrite <- E. split; [apply W_block|apply wsub_refl].
  - intros p s st o st' T R IH TE A v B E N NC. destruct (IH TE A v B E N NC) as (e & A' & B' & W & S1). exists e, A', B'. split; [apply W_seq; exact W|exact S1].
  - intros p bs st o st' T R IH TE A v B E N NC. destruct (IH TE A v B E N NC) as [K|(j & s & e & A' & B' & Q & W & S1)].
    + destruct (first_walk p bs TE) as (e & X & W). apply in_split in K as (l1 & l2 & K). rewrite K in W. rewrite <- app_assoc in W. exists e, l1. eexists. split; [exact W|].
      intros z Hz Wz. exfalso. refine (wsub_rd p UCond (concat (map catoms (bconds bs))) [] z _ Wz). rewrite K. apply in_or_app; left; exact Hz.
    + pose proof (W_branch p bs j s e _ Q W) as W'. rewrite app_assoc in W'. exists e. eexists _, _. split; [exact W'|].
      apply wsub_app; [apply wsub_rd|exact S1].
  - intros p s st o st' T R IH TE A v B E N NC. destruct (IH TE A v B E N NC) as (e & A' & B' & W & S1). exists e, A', B'. split; [apply W_while; exact W|exact S1].
  - intros p k i init c u s st v0 o st' T EV R IH TE A v B E N NC. cbn [testN] in TE. apply andb_true_iff in TE as [TC TE].
    assert (C : catoms c <> []) by (destruct (catoms c); discriminate).
    apply split_app in E as [(Q1 & E & EB)|(P2 & EA & E)].
    + exists true, A. eexists. split; [|apply wsub_refl].
      pose proof (W_loop p k i init c u s true _ (W_out p i c u s true [] C (W_leave p i c u s))) as W. rewrite E in W. rewrite <- app_assoc in W. exact W.
    + destruct P2 as [|z P2]; cbn [app] in E; [inversion E; subst v; discriminate|]. inversion E; subst z.
      destruct (IH TE C P2 v B) as (e & A' & B' & X & W & Q & S1); auto. exists e. eexists _, B'. split.
      * pose proof (W_loop p k i init c u s e X W) as W'. rewrite Q in W'. rewrite app_comm_cons, app_assoc in W'. exact W'.
      * subst A. apply wsub_app; [apply wsub_rd|]. apply wsub_right. intros z [<-|Hz] Wz; [left; reflexivity|right; apply S1; auto].
  - intros p st _ A v B E. destruct A; discriminate.
  - intros p st _ A v B E. destruct A; discriminate.
  - intros p r st _ A v B E N NC. exists false, A, B. rewrite <- E. split; [apply W_return|apply wsub_refl].
  - intros q k st _ A v B E. destruct A; discriminate.
  - intros q k n a r st st1 st2 o st' T1 T2 R1 IH1 EA R2 IH2 TE A v B E N NC. cbn [testS] in TE. apply andb_true_iff in TE as [TE1 TE2].
    assert (NC1 : u_el v = UUpd -> ncN n = true) by (intros Q; specialize (NC Q); cbn [ncS] in NC; apply andb_true_iff in NC; tauto).
    assert (NC2 : u_el v = UUpd -> ncS r = true) by (intros Q; specialize (NC Q); cbn [ncS] in NC; apply andb_true_iff in NC; tauto).
    destruct (proj1 (norm_walk I) _ _ _ _ _ _ R1 eq_refl TE1) as (X1 & W1 & S1).
    apply split_app in E as [(Q1 & E & EB)|(P2 & EA2 & E)].
    + destruct (IH1 TE1 A v Q1 E N NC1) as ([|] & A' & B' & W & K).
      * destruct (proj1 (proj2 some_walk) r q (S k) TE2) as (e & Y & WY). exists e, A'. eexists. split; [|exact K].
        rewrite app_comm_cons, app_assoc. eapply W_cons; eassumption.
      * exists false, A', B'. split; [apply W_stop; exact W|exact K].
    + apply split_app in E as [(Q1 & E & EB)|(P3 & EA3 & E)].
      * destruct (proj1 (proj2 some_walk) r q (S k) TE2) as (e & Y & WY).
        assert (IN : In v (rdU (Kid k :: q) UAsg (asg_reads a))).
        { assert (IV : In v (asgU (Kid k :: q) a)) by (rewrite E; apply in_or_app; right; left; reflexivity).
          unfold asgU in IV. apply in_concat in IV as (l & L1 & L2). apply in_map_iff in L1 as ((y & f) & <- & L3). cbn [fst snd] in L2.
          apply in_app_or in L2 as [L2|[<-|[]]]; [|discriminate]. apply in_map_iff in L2 as (z & <- & L2). apply in_map_iff. exists z. split; [reflexivity|].
          unfold asg_reads. apply in_concat. exists (atoms f). split; auto. apply in_map_iff. exists (y, f). auto. }
        apply in_split in IN as (l1 & l2 & IN). pose proof (W_cons q k n a r e X1 Y W1 WY) as W. unfold asgW in W. rewrite IN in W.
        exists e, (X1 ++ l1). eexists. split; [rewrite <- !app_assoc in W; rewrite <- app_assoc; exact W|].
        rewrite EA2. apply wsub_app; [apply wsub_left; exact S1|]. intros z Hz Wz. exfalso. refine (wsub_rd (Kid k :: q) UAsg (asg_reads a) [] z _ Wz). rewrite IN. apply in_or_app; left; exact Hz.
      * destruct (IH2 TE2 P3 v B E N NC2) as (e & A' & B' & W & K). exists e. eexists _, B'. split.
        -- pose proof (W_cons q k n a r e X1 _ W1 W) as W'. rewrite !app_assoc in W'. exact W'.
        -- rewrite EA2, EA3. apply wsub_app; [apply wsub_app; [apply wsub_left; exact S1|apply wsub_right, wsub_left, wsub_asg]|apply wsub_right, wsub_right; exact K].
  - intros q k n a r st o st' T R IH NO TE A v B E N NC. cbn [testS] in TE. apply andb_true_iff in TE as [TE1 TE2].
    assert (NC1 : u_el v = UUpd -> ncN n = true) by (intros Q; specialize (NC Q); cbn [ncS] in NC; apply andb_true_iff in NC; tauto).
    destruct (IH TE1 A v B E N NC1) as ([|] & A' & B' & W & K).
    + destruct (proj1 (proj2 some_walk) r q (S k) TE2) as (e & Y & WY). exists e, A'. eexists. split; [|exact K].
      rewrite app_comm_cons, app_assoc. eapply W_cons; eassumption.
    + exists false, A', B'. split; [apply W_stop; exact W|exact K].
  - intros p k st _ A v B E. destruct A; discriminate.
  - intros p k c s r st o st' T EC R IH TE A v B E N NC. cbn [testB] in TE. apply andb_true_iff in TE as [TE1 TE2].
    assert (NC1 : u_el v = UUpd -> ncS s = true) by (intros Q; specialize (NC Q); cbn [ncB] in NC; apply andb_true_iff in NC; tauto).
    apply split_app in E as [(Q1 & E & EB)|(P2 & EA & E)].
    + left. cbn [bconds map concat]. unfold rdU. rewrite map_app. apply in_or_app. left. fold (rdU p UCond (catoms c)). rewrite E. apply in_or_app; right; left; reflexivity.
    + right. destruct (IH TE1 P2 v B E N NC1) as (e & A' & B' & W & K). exists 0%nat, s, e, A', B'. split; [reflexivity|]. rewrite Nat.add_0_r. split; [exact W|]. rewrite EA. apply wsub_right; exact K.
  - intros p k c s r st o st' T EC R IH TE A v B E N NC. cbn [testB] in TE. apply andb_true_iff in TE as [TE1 TE2].
    assert (NC1 : u_el v = UUpd -> ncB r = true) by (intros Q; specialize (NC Q); cbn [ncB] in NC; apply andb_true_iff in NC; tauto).
    cbn [bconds map concat]. unfold rdU at 1. rewrite map_app.
    apply split_app in E as [(Q1 & E & EB)|(P2 & EA & E)].
    + left. apply in_or_app. left. fold (rdU p UCond (catoms c)). rewrite E. apply in_or_app; right; left; reflexivity.
    + destruct (IH TE2 P2 v B E N NC1) as [K|(j & s' & e & A' & B' & Q & W & K)]; [left; apply in_or_app; right; exact K|].
      right. exists (S j), s', e, A', B'. split; [exact Q|]. rewrite Nat.add_succ_r. split; [exact W|]. rewrite EA. apply wsub_right; exact K.
  - intros p s st o1 st1 o st' T1 T2 R1 IH1 OO R2 IH2 TE A v B E N NC. apply split_app in E as [(Q1 & E & EB)|(P2 & EA & E)].
    + destruct (IH1 TE A v Q1 E N NC) as ([|] & A' & B' & W & K); eexists; exists A', B'; (split; [|exact K]); [apply W_once|apply W_wstop]; exact W.
    + destruct (IH2 TE P2 v B E N NC) as (e & A' & B' & W & K). exists e, A', B'. split; [exact W|]. rewrite EA. apply wsub_right; exact K.
  - intros p s st st' T R IH TE A v B E N NC. destruct (IH TE A v B E N NC) as ([|] & A' & B' & W & K); eexists; exists A', B'; (split; [|exact K]); [apply W_once|apply W_wstop]; exact W.
  - intros p s st r st' T R IH TE A v B E N NC. destruct (IH TE A v B E N NC) as ([|] & A' & B' & W & K); eexists; exists A', B'; (split; [|exact K]); [apply W_once|apply W_wstop]; exact W.
  - intros p i c u s st EC TE C A v B E N NC. apply (TEST p i c u s A v B C E).
  - intros p i c u s st o1 st1 v0 o st' T1 T2 EC R1 IH1 OO EU R2 IH2 TE C A v B E N NC.
    apply split_app in E as [(Q1 & E & EB)|(P2 & EA & E)]; [apply (TEST p i c u s A v Q1 C E)|].
    apply split_app in E as [(Q1 & E & EB)|(P3 & EA3 & E)]; [apply (BODY p i c u s P2 v Q1 T1 (IH1 TE) E N NC); rewrite EA; apply wsub_right, wsub_refl|].
    apply split_app in E as [(Q1 & E & EB)|(P4 & EA4 & E)].
    + assert (UE : u_el v = UUpd). { assert (IV : In v (rdU p UUpd (atoms u))) by (rewrite E; apply in_or_app; right; left; reflexivity). apply in_map_iff in IV as (z & <- & _). reflexivity. }
      destruct OO as [->| ->]; [|exfalso; exact (proj1 (proj2 (nc_out I)) _ _ _ _ (proj1 (proj2 (runU_run I)) _ _ _ _ _ _ _ R1) (NC UE) eq_refl)].
      destruct (proj1 (proj2 (norm_walk I)) _ _ _ _ _ _ _ R1 eq_refl TE) as (X & W & K).
      pose proof (W_body p i c u s true X [] W (W_leave p i c u s)) as W'. rewrite E in W'.
      eexists true, _, _, _. split; [exact W'|]. split; [rewrite <- (app_assoc P3); cbn [app]; rewrite !app_assoc; reflexivity|].
      rewrite EA, EA3. rewrite <- app_assoc. apply wsub_app; [apply wsub_rd|]. apply wsub_right. apply wsub_app; [apply wsub_left; exact K|apply wsub_right, wsub_refl].
    + destruct P4 as [|z P4]; cbn [app] in E; [inversion E; subst v; discriminate|]. inversion E; subst z.
      destruct (IH2 TE C P4 v B) as (e & A' & B' & X & W & Q & K); auto. exists e, A', B', X. split; [exact W|]. split; [exact Q|].
      rewrite EA, EA3, EA4. apply wsub_right, wsub_right, wsub_right. intros z Hz Wz. right. apply K; auto.
  - intros p i c u s st st' T EC R IH TE C A v B E N NC. apply split_app in E as [(Q1 & E & EB)|(P2 & EA & E)]; [apply (TEST p i c u s A v Q1 C E)|].
    apply (BODY p i c u s P2 v B T (IH TE) E N NC); rewrite EA; apply wsub_right, wsub_refl.
  - intros p i c u s st r st' T EC R IH TE C A v B E N NC. apply split_app in E as [(Q1 & E & EB)|(P2 & EA & E)]; [apply (TEST p i c u s A v Q1 C E)|].
    apply (BODY p i c u s P2 v B T (IH TE) E N NC); rewrite EA; apply wsub_right, wsub_refl.
Qed.

Theorem dom_sound I p dm w r st o st' T A B : dom_graph p dm -> testS p = true -> (u_el r = UUpd -> ncS p = true) -> runsU I [] 0 p st o st' T ->
  T = A ++ r :: B -> u_w r = false -> u_w w = true -> dm w r = true -> In w A.
Proof.
  intros D TE NC R E N W H. destruct (proj1 (proj2 (reach I)) _ _ _ _ _ _ _ R TE A r B E N NC) as (e & A' & B' & K & S1).
  apply S1; [|exact W]. apply (D w r H A' B'). exists e. exact K.
Qed.

(** ** Program order outside loops *)
(** [later u v]: [v] is in a later child than [u] of a sequence that is in no loop. *)
Definition not_body (s : pstep) : bool := match s with Body => false | _ => true end.
Definition later (u v : user) : Prop :=
  exists q l1 l2 i j, u_at u = l1 ++ Kid i :: q /\ u_at v = l2 ++ Kid j :: q /\ (i < j)%nat /\ forallb not_body q = true.

Definition at_or (p : path) (u : user) : Prop := u_at u = p \/ within (Body :: p) (u_at u).
Lemma log_at I :
  (forall p n st o st' T, runU I p n st o st' T -> forall u, In u T -> within p (u_at u)) /\
  (forall q k s st o st' T, runsU I q k s st o st' T -> forall u, In u T -> exists j, (k <= j)%nat /\ within (Kid j :: q) (u_at u)) /\
  (forall p k b st o st' T, runbU I p k b st o st' T -> forall u, In u T -> u_at u = p \/ exists j, (k <= j)%nat /\ within (Br j :: p) (u_at u)) /\
  (forall p s st o st' T, runwU I p s st o st' T -> forall u, In u T -> within (Body :: p) (u_at u)) /\
  (forall p i c u s st o st' T, runlU I p i c u s st o st' T -> forall u, In u T -> at_or p u).
Proof.
  assert (RD : forall p e l v, In v (rdU p e l) -> u_at v = p) by (intros p e l v Hv; apply in_map_iff in Hv as (y & <- & _); reflexivity).
  assert (BL : forall p b j v, In v (blkU p j b) -> u_at v = p).
  { induction b as [|o b IH]; intros j v H; [destruct H|]. simpl in H. apply in_app_or in H as [H|H]; [|eapply IH; exact H].
    unfold opU in H. apply in_app_or in H as [H|[<-|[]]]; [eapply RD; exact H|reflexivity]. }
  assert (AS : forall p a v, In v (asgU p a) -> u_at v = p).
  { intros p a v IV. unfold asgU in IV. apply in_concat in IV as (l & L1 & L2). apply in_map_iff in L1 as ((y & f) & <- & L3). apply in_app_or in L2 as [L2|[<-|[]]]; [eapply RD; exact L2|reflexivity]. }
  assert (SELF : forall p v, u_at v = p -> within p (u_at v)) by (intros p v <-; apply within_refl).
  assert (UP : forall st p q, within (st :: p) q -> within p q) by (intros st0 p q Hq; eapply within_trans; [apply within_cons|exact Hq]).
  apply runU_mind.
  - intros p b st st' _ u Hu. apply SELF. eapply BL; exact Hu.
  - intros p s st o st' T _ IH u Hu. destruct (IH u Hu) as (j & _ & K). eapply UP; exact K.
  - intros p bs st o st' T _ IH u Hu. destruct (IH u Hu) as [K|(j & _ & K)]; [apply SELF; exact K|eapply UP; exact K].
  - intros p s st o st' T _ IH u Hu. eapply UP. apply IH; exact Hu.
  - intros p k i init c u s st v o st' T _ _ IH z Hz. apply in_app_or in Hz as [Hz|[<-|Hz]]; [apply SELF; eapply RD; exact Hz|apply within_refl|].
    destruct (IH z Hz) as [K|K]; [apply SELF; exact K|eapply UP; exact K].
  - intros p st u [].
  - intros p st u [].
  - intros p r st u [<-|[]]. apply within_refl.
  - intros q k st u [].
  - intros q k n a r st st1 st2 o st' T1 T2 _ IH1 _ _ IH2 u Hu. apply in_app_or in Hu as [Hu|Hu]; [exists k; split; [lia|apply IH1; exact Hu]|].
    apply in_app_or in Hu as [Hu|Hu]; [exists k; split; [lia|apply SELF; eapply AS; exact Hu]|]. destruct (IH2 u Hu) as (j & L & K). exists j. split; [lia|exact K].
  - intros q k n a r st o st' T _ IH _ u Hu. exists k. split; [lia|apply IH; exact Hu].
  - intros p k st u [].
  - intros p k c s r st o st' T _ _ IH u Hu. apply in_app_or in Hu as [Hu|Hu]; [left; eapply RD; exact Hu|right]. exists k. split; [lia|]. destruct (IH u Hu) as (j & _ & K). eapply UP; exact K.
  - intros p k c s r st o st' T _ _ IH u Hu. apply in_app_or in Hu as [Hu|Hu]; [left; eapply RD; exact Hu|]. destruct (IH u Hu) as [K|(j & L & K)]; [left; exact K|right; exists j; split; [lia|exact K]].
  - intros p s st o1 st1 o st' T1 T2 _ IH1 _ _ IH2 u Hu. apply in_app_or in Hu as [Hu|Hu]; [|apply IH2; exact Hu]. destruct (IH1 u Hu) as (j & _ & K). eapply UP; exact K.
  - intros p s st st' T _ IH u Hu. destruct (IH u Hu) as (j & _ & K). eapply UP; exact K.
  - intros p s st r st' T _ IH u Hu. destruct (IH u Hu) as (j & _ & K). eapply UP; exact K.
  - intros p i c u s st _ z Hz. left. eapply RD; exact Hz.
  - intros p i c u s st o1 st1 v o st' T1 T2 _ _ IH1 _ _ _ IH2 z Hz. apply in_app_or in Hz as [Hz|Hz]; [left; eapply RD; exact Hz|].
    apply in_app_or in Hz as [Hz|Hz]; [right; destruct (IH1 z Hz) as (j & _ & K); eapply UP; exact K|]. apply in_app_or in Hz as [Hz|[<-|Hz]]; [left; eapply RD; exact Hz|left; reflexivity|apply IH2; exact Hz].
  - intros p i c u s st st' T _ _ IH z Hz. apply in_app_or in Hz as [Hz|Hz]; [left; eapply RD; exact Hz|right]. destruct (IH z Hz) as (j & _ & K). eapply UP; exact K.
  - intros p i c u s st r st' T _ _ IH z Hz. apply in_app_or in Hz as [Hz|Hz]; [left; eapply RD; exact Hz|right]. destruct (IH z Hz) as (j & _ & K). eapply UP; exact K.
Qed.

(** positions that start at [p] *)
Definition laterp (p : path) (u v : user) : Prop :=
  exists m l1 l2 i j, u_at u = l1 ++ Kid i :: m ++ p /\ u_at v = l2 ++ Kid j :: m ++ p /\ (i < j)%nat /\ forallb not_body m = true.
Lemma app_tail_inv {A} (a b c d : list A) : a ++ b = c ++ d -> (List.length b = List.length d) -> a = c /\ b = d.
Proof.
  revert c. induction a as [|x a IH]; intros c E L; destruct c as [|y c]; cbn [app] in E.
  - auto.
  - subst b. cbn [List.length] in L. rewrite app_length in L. lia.
  - subst d. cbn [List.length] in L. rewrite app_length in L. lia.
  - inversion E; subst. destruct (IH c) as [-> ->]; auto.
Qed.
(** a position below [p]: the step taken from [p] *)
Lemma first_step p u k m l1 i : within (k :: p) (u_at u) -> u_at u = l1 ++ Kid i :: m ++ p -> (m = [] /\ k = Kid i) \/ exists m', m = m' ++ [k].
Proof.
  intros (l & E) E2. rewrite E in E2. destruct (@exists_last _ (Kid i :: m)) as (m1 & z & Q); [discriminate|].
  change (l1 ++ Kid i :: m ++ p) with (l1 ++ (Kid i :: m) ++ p) in E2. rewrite Q in E2. rewrite app_assoc in E2. change (k :: p) with ([k] ++ p) in E2. rewrite !app_assoc in E2.
  apply app_inv_tail in E2. apply app_inj_tail in E2 as [_ ->]. destruct m1 as [|y m1]; cbn [app] in Q; inversion Q; subst; [left; auto|right; exists m1; reflexivity].
Qed.
Lemma down_kid p u v k : laterp p u v -> within (k :: p) (u_at u) -> within (k :: p) (u_at v) -> k <> Body /\ laterp (k :: p) u v.
Proof.
  intros (m & l1 & l2 & i & j & E1 & E2 & L & NB) W1 W2.
  destruct (first_step _ _ _ _ _ _ W1 E1) as [[-> K1]|(m' & Q)].
  - destruct (first_step _ _ _ _ _ _ W2 E2) as [[_ K2]|(m' & Q)]; [subst k; inversion K2; lia|destruct m'; discriminate].
  - subst m. rewrite forallb_app in NB. apply andb_true_iff in NB as [NB1 NB2]. split; [intros ->; discriminate|].
    exists m', l1, l2, i, j. rewrite <- app_assoc in E1, E2. auto.
Qed.
Lemma apart p u v k k' : laterp p u v -> within (k :: p) (u_at u) -> within (k' :: p) (u_at v) -> k <> k' -> exists i j, k = Kid i /\ k' = Kid j /\ (i < j)%nat.
Proof.
  intros (m & l1 & l2 & i & j & E1 & E2 & L & NB) W1 W2 N.
  destruct (first_step _ _ _ _ _ _ W1 E1) as [[-> K1]|(m' & Q)]; destruct (first_step _ _ _ _ _ _ W2 E2) as [[Q2 K2]|(m2 & Q2)].
  - exists i, j. auto.
  - destruct m2; discriminate.
  - subst m. destruct m'; discriminate.
  - subst m. apply app_inj_tail in Q2 as [_ ->]. contradiction.
Qed.
Lemma not_at p u v : laterp p u v -> u_at u <> p /\ u_at v <> p.
Proof.
  intros (m & l1 & l2 & i & j & E1 & E2 & _). split; intros E; [rewrite E1 in E|rewrite E2 in E]; apply (f_equal (@List.length _)) in E; rewrite app_length in E; cbn [List.length] in E; rewrite app_length in E; lia.
Qed.
(** [v] before [u] *)
Definition swapped (T : utrace) (u v : user) : Prop := exists A B C, T = A ++ v :: B ++ u :: C.
Lemma swapped_in T u v : swapped T u v -> In u T /\ In v T.
Proof. intros (A & B & C & ->). split; apply in_or_app; right; [right; apply in_or_app; right; left; reflexivity|left; reflexivity]. Qed.
Lemma swapped_app T1 T2 u v : swapped (T1 ++ T2) u v -> swapped T1 u v \/ swapped T2 u v \/ (In v T1 /\ In u T2).
Proof.
  intros (A & B & C & E). apply split_app in E as [(Q1 & E & EB)|(P2 & EA & E)].
  - symmetry in EB. apply split_app in EB as [(Q2 & E2 & EB2)|(P3 & EA3 & E3)].
    + left. exists A, B, Q2. rewrite E, E2. reflexivity.
    + right; right. split; [rewrite E; apply in_or_app; right; left; reflexivity|rewrite E3; apply in_or_app; right; left; reflexivity].
  - right; left. exists P2, B, C. exact E.
Qed.
Lemma asgU_at p a v : In v (asgU p a) -> u_at v = p.
Proof.
  intros IV. unfold asgU in IV. apply in_concat in IV as (l & L1 & L2). apply in_map_iff in L1 as ((y & f) & <- & L3).
  apply in_app_or in L2 as [L2|[<-|[]]]; [apply in_map_iff in L2 as (z & <- & _); reflexivity|reflexivity].
Qed.
Lemma in_program_order I :
  (forall p n st o st' T, runU I p n st o st' T -> forall u v, laterp p u v -> ~ swapped T u v) /\
  (forall q k s st o st' T, runsU I q k s st o st' T -> forall u v, laterp q u v -> ~ swapped T u v) /\
  (forall p k b st o st' T, runbU I p k b st o st' T -> forall u v, laterp p u v -> ~ swapped T u v) /\
  (forall p s st o st' T, runwU I p s st o st' T -> True) /\
  (forall p i c u s st o st' T, runlU I p i c u s st o st' T -> True).
Proof.
  assert (RD : forall p e l v, In v (rdU p e l) -> u_at v = p) by (intros p e l v Hv; apply in_map_iff in Hv as (y & <- & _); reflexivity).
  assert (BODY : forall p u v, laterp p u v -> within (Body :: p) (u_at u) -> within (Body :: p) (u_at v) -> False).
  { intros p u v H H1 H2. destruct (down_kid _ _ _ _ H H1 H2) as [K _]. apply K; reflexivity. }
  destruct (log_at I) as (LN & LS & LB & LW & LL).
  apply runU_mind; try (intros; exact Logic.I).
  - intros p b st st' _ u v L SW. apply swapped_in in SW as [S1 _]. apply (proj1 (not_at _ _ _ L)).
    clear - S1 RD. revert S1. generalize 0%nat. induction b as [|o b IH]; intros j H; [destruct H|]. simpl in H. apply in_app_or in H as [H|H]; [|eapply IH; exact H].
    unfold opU in H. apply in_app_or in H as [H|[<-|[]]]; [eapply RD; exact H|reflexivity].
  - intros p s st o st' T _ IH u v L. apply IH; exact L.
  - intros p bs st o st' T _ IH u v L. apply IH; exact L.
  - intros p s st o st' T R _ u v L SW. apply swapped_in in SW as [S1 S2]. exact (BODY p u v L (LW _ _ _ _ _ _ R u S1) (LW _ _ _ _ _ _ R v S2)).
  - intros p k i init c u0 s st v0 o st' T E R _ u v L SW. apply swapped_in in SW as [S1 S2]. destruct (not_at _ _ _ L) as [N1 N2].
    assert (Q : forall z, In z (rdU p UInit (atoms init) ++ U p UInit true i :: T) -> u_at z <> p -> within (Body :: p) (u_at z)).
    { intros z Hz Nz. apply in_app_or in Hz as [Hz|[<-|Hz]]; [elim Nz; eapply RD; exact Hz|elim Nz; reflexivity|]. destruct (LL _ _ _ _ _ _ _ _ _ R z Hz) as [K|K]; [contradiction|exact K]. }
    exact (BODY p u v L (Q u S1 N1) (Q v S2 N2)).
  - intros p st u v _ SW. apply swapped_in in SW as [[] _].
  - intros p st u v _ SW. apply swapped_in in SW as [[] _].
  - intros p r st u v L SW. apply swapped_in in SW as [[<-|[]] _]. exact (proj1 (not_at _ _ _ L) eq_refl).
  - intros q k st u v _ SW. apply swapped_in in SW as [[] _].
  - intros q k n a r st st1 st2 o st' T1 T2 R1 IH1 _ R2 IH2 u v L SW.
    assert (W1 : forall z, In z (T1 ++ asgU (Kid k :: q) a) -> within (Kid k :: q) (u_at z)).
    { intros z Hz. apply in_app_or in Hz as [Hz|Hz]; [eapply LN; eassumption|rewrite (asgU_at _ _ _ Hz); apply within_refl]. }
    rewrite app_assoc in SW. apply swapped_app in SW as [SW|[SW|[S1 S2]]].
    + pose proof (swapped_in _ _ _ SW) as [I1 I2]. destruct (down_kid _ _ _ _ L (W1 u I1) (W1 v I2)) as [_ L'].
      apply swapped_app in SW as [SW|[SW|[S1 S2]]]; [exact (IH1 _ _ L' SW)| |]; destruct (not_at _ _ _ L') as [N1 N2].
      * apply swapped_in in SW as [I3 _]. apply N1. eapply asgU_at; exact I3.
      * apply N1. eapply asgU_at; exact S2.
    + exact (IH2 _ _ L SW).
    + destruct (LS _ _ _ _ _ _ _ R2 u S2) as (j & LE & W2). destruct (apart _ _ _ _ _ L W2 (W1 v S1)) as (i & j' & Q1 & Q2 & LT); [intros Q; inversion Q; lia|].
      inversion Q1; inversion Q2; lia.
  - intros q k n a r st o st' T R IH _ u v L SW. pose proof (swapped_in _ _ _ SW) as [I1 I2].
    destruct (down_kid _ _ _ _ L (LN _ _ _ _ _ _ R u I1) (LN _ _ _ _ _ _ R v I2)) as [_ L']. exact (IH _ _ L' SW).
  - intros p k st u v _ SW. apply swapped_in in SW as [[] _].
  - intros p k c s r st o st' T _ R IH u v L SW. destruct (not_at _ _ _ L) as [N1 N2].
    apply swapped_app in SW as [SW|[SW|[S1 _]]]; [apply swapped_in in SW as [S1 _]; apply N1; eapply RD; exact S1| |apply N2; eapply RD; exact S1].
    pose proof (swapped_in _ _ _ SW) as [I1 I2].
    assert (W : forall z, In z T -> within (Br k :: p) (u_at z)). { intros z Hz. destruct (LS _ _ _ _ _ _ _ R z Hz) as (j & _ & K). eapply within_trans; [apply within_cons|exact K]. }
    destruct (down_kid _ _ _ _ L (W u I1) (W v I2)) as [_ L']. exact (IH _ _ L' SW).
  - intros p k c s r st o st' T _ R IH u v L SW. destruct (not_at _ _ _ L) as [N1 N2].
    apply swapped_app in SW as [SW|[SW|[S1 _]]]; [apply swapped_in in SW as [S1 _]; apply N1; eapply RD; exact S1|exact (IH _ _ L SW)|apply N2; eapply RD; exact S1].
Qed.
Theorem program_order I p st o st' T u v A B C : runsU I [] 0 p st o st' T -> later u v -> T = A ++ v :: B ++ u :: C -> False.
Proof.
  intros R (q & l1 & l2 & i & j & E1 & E2 & L & NB) E. refine (proj1 (proj2 (in_program_order I)) _ _ _ _ _ _ _ R u v _ _); [|exists A, B, C; exact E].
  exists q, l1, l2, i, j. rewrite app_nil_r. auto.
Qed.

(** ** The criteria (lines 161-236) *)
(** defined_by(read) = {write}: line 162 *)
Definition only_def (x : string) (pd dom : user -> user -> bool) cov last (p : seq) (w r : user) : Prop :=
  forall w', reported x true pd dom cov last p w' r -> w' = w.
(** is_dangerous, 203-221 *)
Definition dangerous (dom : user -> user -> bool) (w r u : user) : bool :=
  negb (is_u u w || is_u u r) && dom w u && negb (dom r u).
Definition may_propagate (x : string) (rhs : expr) pd (dom : user -> user -> bool) cov last (p : seq) (pw : path) (r : user) : Prop :=
  let w := U pw UAsg true x in
  u_w r = false /\ u_x r = x /\
  only_def x pd dom cov last p w r /\
  asgS (fun q y f => q = pw -> y = x -> f = rhs) [] 0 p /\
  ~ In x (atoms rhs) /\
  dom w r = true /\
  forall u, u_w u = true -> In (u_x u) (atoms rhs) -> dangerous dom w r u = false.
Definition propagate (x : string) (rhs : expr) (r : user) (p : seq) : seq := propS x rhs r [] 0 p.
(** no symbol of [rhs] is written between the write and the read *)
Definition undisturbed (x : string) (rhs : expr) (w r : user) (T : utrace) : Prop :=
  forall A B C, T = A ++ w :: B ++ r :: C -> clear_of [x] B -> clear_of (atoms rhs) B.

Section Main.
  Variables (I : nat -> list Z -> option Z) (x : string) (rhs : expr) (pd dom : user -> user -> bool).
  Variable cov : user -> user -> bool.
  Variable last : list def -> bool.
  Variables (p : seq) (pw : path) (r : user).
  Let w := U pw UAsg true x.
  Hypothesis G : pd_graph p pd.
  Hypothesis D : dom_graph p dom.
  Hypothesis TE : testS p = true.
  Hypothesis REG : regular x true p = true.
  Hypothesis RR : u_w r = false.
  Hypothesis RX : u_x r = x.
  Hypothesis NC : u_el r = UUpd -> ncS p = true.
  Hypothesis ONE : only_def x pd dom cov last p w r.
  Hypothesis DOM : dom w r = true.
  (** the last write of [x] before the read is [w] *)
  Lemma last_write st o st' T B C : runsU I [] 0 p st o st' T -> T = B ++ r :: C -> exists T1 T2, B = T1 ++ w :: T2 /\ clear_of [x] T2.
  Proof.
    intros R E. pose proof (dom_sound I p dom w r st o st' T B C D TE NC R E RR eq_refl DOM) as INW.
    assert (Q : exists T1 w' T2, B = T1 ++ w' :: T2 /\ writes_of x w' /\ clear_of [x] T2).
    { clear - INW. assert (W : writes_of x w) by (split; reflexivity). clearbody w. revert INW. induction B as [|u B IH] using rev_ind; intros H; [destruct H|].
      destruct (Bool.bool_dec (u_w u) true) as [W1|W1].
      - destruct (string_dec (u_x u) x) as [X1|X1]; [exists B, u, []; split; [reflexivity|split; [split; auto|intros v []]]|].
        apply in_app_or in H as [H|[->|[]]]; [|destruct W; contradiction]. destruct (IH H) as (T1 & w' & T2 & -> & Q1 & Q2).
        exists T1, w', (T2 ++ [u]). rewrite <- app_assoc. split; [reflexivity|split; [exact Q1|]]. intros v Hv [K1 [K2|[]]]. apply in_app_or in Hv as [Hv|[<-|[]]]; [apply (Q2 v Hv); split; [exact K1|left; exact K2]|congruence].
      - apply in_app_or in H as [H|[->|[]]]; [|destruct W; contradiction]. destruct (IH H) as (T1 & w' & T2 & -> & Q1 & Q2).
        exists T1, w', (T2 ++ [u]). rewrite <- app_assoc. split; [reflexivity|split; [exact Q1|]]. intros v Hv [K1 K2]. apply in_app_or in Hv as [Hv|[<-|[]]]; [apply (Q2 v Hv); split; assumption|congruence]. }
    destruct Q as (T1 & w' & T2 & EB & Q1 & Q2). exists T1, T2. split; [|exact Q2]. rewrite EB. f_equal. f_equal.
    apply ONE. eapply (GraphProps.C49_users_graph_partial I x true pd dom cov last p st o st' T w' r G TE REG R).
    exists T1, T2, C. subst T B. rewrite <- app_assoc. split; [reflexivity|]. split; [exact Q1|]. split; [split; assumption|]. intros _ u Hu [K1 K2]. apply (Q2 u Hu). split; [exact K1|left; auto].
  Qed.
  Hypothesis FRESH : ~ In x (atoms rhs).
  Hypothesis ASG : asgS (fun q y f => q = pw -> y = x -> f = rhs) [] 0 p.
  Theorem propagate_sim st o st' T : runsU I [] 0 p st o st' T -> undisturbed x rhs w r T -> runs I (propagate x rhs r p) st o st'.
  Proof.
    intros R UN. refine (proj1 (proj1 (proj2 (sim I x rhs r (is_def x rhs pw) (covered w x (atoms rhs)) (J1 x rhs pw) _ _ _ _)) _ _ _ _ _ _ _ R [] _ _ _)).
    - intros. apply J1_rd; auto.
    - intros. apply J1_wr; auto.
    - intros. eapply J1_asg; eauto.
    - intros T0 s0 H C. apply H; exact C.
    - apply J1_start.
    - intros B C E. cbn [app] in E. destruct (last_write _ _ _ _ _ _ R E) as (T1 & T2 & EB & CL). exists T1, T2. split; [exact EB|].
      assert (CL2 : clear_of (atoms rhs) T2). { apply (UN T1 T2 C); [|exact CL]. rewrite E, EB, <- app_assoc. reflexivity. }
      intros u Hu [K1 [K2|K2]]; [apply (CL u Hu); split; [exact K1|left; exact K2]|apply (CL2 u Hu); split; assumption].
    - exact ASG.
  Qed.
  (** one symbol is changed in between and the change is undone *)
  Variables (s : string) (g i : expr) (pm : path).
  Hypothesis only : forall y, In y (atoms g) -> y = s.
  Hypothesis onlyi : forall y, In y (atoms i) -> y = s.
  Hypothesis neq : s <> x.
  Hypothesis undo : forall (b : env) v, eval b g = Some v -> eval (upd b s v) i = Some (b s).
  Hypothesis ASG2 : asgS (fun q y f => (q = pw -> y = x -> f = rhs) /\ (q = pm -> y = s -> f = g)) [] 0 p.
  Theorem propagate_sim2 st o st' T : runsU I [] 0 p st o st' T ->
    (forall A B C, T = A ++ w :: B ++ r :: C -> clear_of [x] B -> exists B1 B2, B = B1 ++ U pm UAsg true s :: B2 /\ clear_of (atoms rhs) (B1 ++ B2)) ->
    runs I (propagate x (subs rhs s i) r p) st o st'.
  Proof.
    intros R UN. refine (proj1 (proj1 (proj2 (sim I x (subs rhs s i) r (is_def2 x rhs pw s g pm) (covered_mod w (U pm UAsg true s) x (atoms rhs)) (J2 x rhs pw s i pm) _ _ _ _)) _ _ _ _ _ _ _ R [] _ _ _)).
    - intros. apply J2_rd; auto.
    - intros. apply (J2_wr x rhs pw s g i pm); auto.
    - intros. eapply (J2_asg x rhs pw FRESH s g i pm only onlyi neq undo); eauto.
    - intros T0 s0 H C. apply H; exact C.
    - apply J2_start.
    - intros B C E. cbn [app] in E. destruct (last_write _ _ _ _ _ _ R E) as (T1 & T2 & EB & CL).
      destruct (UN T1 T2 C) as (B1 & B2 & EB2 & CL2); [rewrite E, EB, <- app_assoc; reflexivity|exact CL|].
      exists T1, B1, B2. split; [rewrite EB, EB2; reflexivity|].
      intros u Hu [K1 [K2|K2]]; [|apply (CL2 u Hu); split; assumption]. apply (CL u); [rewrite EB2; apply in_app_or in Hu as [Hu|Hu]; apply in_or_app; [left|right; right]; exact Hu|split; [exact K1|left; exact K2]].
    - exact ASG2.
  Qed.
End Main.

(** ** Writes of a program *)
Fixpoint blk_w (p : path) (j : nat) (b : block) : list user := match b with [] => [] | o :: b' => U p (UOp j) true (o_out o) :: blk_w p (S j) b' end.
Fixpoint allwN (p : path) (n : node) : list user :=
  match n with
  | NBlock b => blk_w p 0 b
  | NSeq s => allwS p 0 s
  | NIf bs => allwB p 0 bs
  | NWhile s => allwS (Body :: p) 0 s
  | NLoop _ i _ _ _ s => U p UInit true i :: U p UUpd true i :: allwS (Body :: p) 0 s
  | _ => []
  end
with allwS (q : path) (k : nat) (s : seq) : list user :=
  match s with SNil => [] | SCons n a t => allwN (Kid k :: q) n ++ map (U (Kid k :: q) UAsg true) (map fst a) ++ allwS q (S k) t end
with allwB (p : path) (k : nat) (b : brs) : list user :=
  match b with BNil => [] | BCons c s t => allwS (Br k :: p) 0 s ++ allwB p (S k) t end.
Lemma logged I :
  (forall p n st o st' T, runU I p n st o st' T -> wsub T (allwN p n)) /\
  (forall q k s st o st' T, runsU I q k s st o st' T -> wsub T (allwS q k s)) /\
  (forall p k b st o st' T, runbU I p k b st o st' T -> wsub T (allwB p k b)) /\
  (forall p s st o st' T, runwU I p s st o st' T -> wsub T (allwS (Body :: p) 0 s)) /\
  (forall p i c u s st o st' T, runlU I p i c u s st o st' T -> wsub T (U p UUpd true i :: allwS (Body :: p) 0 s)).
Proof.
  assert (CONS : forall (v : user) A T, In v T -> wsub A T -> wsub (v :: A) T) by (intros v A T Hv H z [<-|Hz] W; auto).
  assert (WC : forall (v : user) A T, wsub A T -> wsub A (v :: T)) by (intros v A T H z Hz W; right; auto).
  apply runU_mind; intros; auto using wsub_nil.
  - cbn [allwN]. generalize 0%nat. clear. induction b as [|o b IH]; intros j; [apply wsub_nil|]. cbn [blkU blk_w]. intros z Hz W. apply in_app_or in Hz as [Hz|Hz]; [|right; apply (IH (S j) z Hz W)].
    unfold opU in Hz. apply in_app_or in Hz as [Hz|[<-|[]]]; [exfalso; exact (wsub_rd _ _ _ [] z Hz W)|left; reflexivity].
  - cbn [allwN]. apply wsub_app; [apply wsub_rd|]. apply CONS; [left; reflexivity|]. apply WC. assumption.
  - apply (wsub_rd p URet [r]).
  - cbn [allwS]. apply wsub_app; [apply wsub_left; assumption|]. apply wsub_right. apply wsub_app; [apply wsub_left|apply wsub_right; assumption].
    intros z Hz W. unfold asgU in Hz. apply in_concat in Hz as (l & L1 & L2). apply in_map_iff in L1 as ((y & f) & <- & L3).
    apply in_app_or in L2 as [L2|[<-|[]]]; [exfalso; exact (wsub_rd _ _ _ [] z L2 W)|]. apply in_map. apply in_map_iff. exists (y, f). auto.
  - cbn [allwS]. apply wsub_left. assumption.
  - cbn [allwB]. apply wsub_app; [apply wsub_rd|apply wsub_left; assumption].
  - cbn [allwB]. apply wsub_app; [apply wsub_rd|apply wsub_right; assumption].
  - apply wsub_app; assumption.
  - apply wsub_rd.
  - apply wsub_app; [apply wsub_rd|]. apply wsub_app; [apply WC; assumption|]. apply wsub_app; [apply wsub_rd|]. apply CONS; [left; reflexivity|assumption].
  - apply wsub_app; [apply wsub_rd|]. apply WC; assumption.
  - apply wsub_app; [apply wsub_rd|]. apply WC; assumption.
Qed.

(** ** inverse on sums and products of two terms *)
Lemma inverse_atoms x e i : inverse x e = Some i -> forall y, In y (atoms i) -> y = x.
Proof.
  unfold inverse. destruct (negb (uses e x)); [discriminate|].
  assert (SD : forall b i y, (exists z, b = EInt z) -> sym_div (ESym x) b = Some i -> In y (atoms i) -> y = x).
  { intros b i0 y [z ->] E Hy. unfold sym_div in E. cbn [expr_eqb] in E. destruct (z =? 0); [inversion E; subst; destruct Hy as [<-|[]]; reflexivity|]. destruct (z =? 1); inversion E; subst; destruct Hy as [<-|[]]; reflexivity. }
  assert (SS : forall b y, (exists z, b = EInt z) -> In y (atoms (ssub (ESym x) b)) -> y = x).
  { intros b y [z ->] Hy. apply Skew.atoms_ssub in Hy as [[<-|[]]|[]]. reflexivity. }
  destruct e as [| | | |l|l| | | | | | | | |]; try discriminate; (destruct l as [|a [|b l]]; [discriminate|discriminate|]); destruct (expr_eqb a (ESym x)) eqn:E1; cbn [negb].
  - rewrite E1. cbn [negb]. destruct b; try discriminate. intros E; inversion E; subst. intros y. apply SS; eauto.
  - destruct (expr_eqb b (ESym x)) eqn:E2; cbn [negb]; [|discriminate]. destruct a; try discriminate. intros E; inversion E; subst. intros y. apply SS; eauto.
  - rewrite E1. cbn [negb]. destruct b; try discriminate. intros E y. eapply SD; eauto.
  - destruct (expr_eqb b (ESym x)) eqn:E2; cbn [negb]; [|discriminate]. destruct a; try discriminate. intros E y. eapply SD; eauto.
Qed.
