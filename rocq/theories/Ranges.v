(** * The memory range analysis

    Models sdfg/src/analysis/mem_access_range_analysis.cpp and the copy sizes
    computed from it in sdfg/src/analysis/arguments_analysis.cpp:122-186.
    Simplifications: containers used through views or moved pointers (undefined,
    :123-134) do not occur in the model's programs; "no entry" (no subset seen) and
    "undefined" are one answer, [None]: the callers treat them alike. *)
From Coq Require Import ZArith List Bool String Lia.
From Verif Require Import Sym SymFacts SymFuns SymProofs1 SymProofs2 SymProofs4 IR IRFacts Trace Skew Assum AssumProofs AssumProps.
Import ListNotations.
Local Open Scope string_scope.
Local Open Scope list_scope.
Local Open Scope Z_scope.

(** An access: container, subset, the structured loops around it. *)
Record access := Acc { a_x : string; a_sub : list expr; a_ctx : list hdr }.
Definition operand_acc (ctx : list hdr) (o : operand) : list access := match o with ORead x sub => [Acc x sub ctx] | OConst _ => [] end.
Definition op_acc (ctx : list hdr) (o : op) : list access := concat (map (operand_acc ctx) (o_ins o)) ++ [Acc (o_out o) (o_sub o) ctx].
(** users.reads(x), users.writes(x) of the node (mem_access_range_analysis.cpp:117-121),
    with the scope of each (:176-178) *)
Fixpoint accN (ctx : list hdr) (n : node) : list access :=
  match n with
  | NBlock b => concat (map (op_acc ctx) b)
  | NSeq s | NWhile s => accS ctx s
  | NIf b => accB ctx b
  | NLoop k i init c u s => accS (ctx ++ [{| h_i := i; h_init := init; h_c := c; h_u := u; h_body := s |}]) s
  | _ => []
  end
with accS (ctx : list hdr) (s : seq) : list access := match s with SNil => [] | SCons n _ r => accN ctx n ++ accS ctx r end
with accB (ctx : list hdr) (b : brs) : list access := match b with BNil => [] | BCons _ s r => accS ctx s ++ accB ctx r end.

(** symbolic::has<Infty> *)
Fixpoint has_inf (e : expr) : bool :=
  match e with
  | EInf | ENegInf => true
  | EInt _ | ESym _ => false
  | EAdd l | EMul l | EMax l | EMin l => existsb has_inf l
  | EIdiv a b | EImod a b | ECeilDiv a b => has_inf a || has_inf b
  | EPow a _ | EIabs a | EZext a | ETrunc a => has_inf a
  end.
Definition finite (o : option expr) : option expr := match o with Some e => if has_inf e then None else Some e | None => None end.

Section Range.
  (** integer scalars; the assumptions at a place (C39) *)
  Variable is_int : string -> bool.
  Variable at_ctx : list hdr -> assumptions.
  Variable p : node.

  (** the parameters: integer scalars the node uses and does not write (:184-201) *)
  Definition params : list string := filter (fun x => is_int x && negb (existsb (String.eqb x) (nwrites p))) (nnames p).
  (** :216-217 *)
  Definition low1 (k : nat) (a : access) : option expr := finite (minimum_new params (at_ctx (a_ctx a)) true (nth k (a_sub a) (EInt 0))).
  Definition high1 (k : nat) (a : access) : option expr := finite (maximum_new params (at_ctx (a_ctx a)) true (nth k (a_sub a) (EInt 0))).
  (** the accesses of [x] that have a [k]-th index (:206-213) *)
  Definition with_dim (x : string) (k : nat) : list access :=
    filter (fun a => String.eqb (a_x a) x && (k <? List.length (a_sub a))%nat) (accN [] p).
  (** :136-152: one undefined bound makes the dimension undefined *)
  Definition dim_range (x : string) (k : nat) : option (expr * expr) :=
    match omap (low1 k) (with_dim x k), omap (high1 k) (with_dim x k) with
    | Some (l :: ls), Some (h :: hs) => Some (smin_list (l :: ls), smax_list (h :: hs))
    | _, _ => None
    end.
  (** number of dimensions: of the longest subset *)
  Definition rank_of (x : string) : nat :=
    fold_right Nat.max 0%nat (map (fun a => List.length (a_sub a)) (filter (fun a => String.eqb (a_x a) x) (accN [] p))).
  Definition mem_range (x : string) : option (list (expr * expr)) :=
    match rank_of x with O => None | d => omap (dim_range x) (List.seq 0 d) end.
  (** arguments_analysis.cpp:143-146, for a pointer to scalars, in elements: the upper
      bound plus one. The lower bound is not looked at. *)
  Definition copy_size (x : string) : option expr :=
    match mem_range x with Some ((_, h) :: _) => Some (sadd h (EInt 1)) | _ => None end.
End Range.

(* ---------------------------------------------------------------- *)
(** ** The bounds only use parameters *)
Lemma atoms_smax a b x : In x (atoms (smax a b)) -> In x (atoms a) \/ In x (atoms b).
Proof.
  unfold smax. intros H. assert (G: In x (atoms (if expr_eqb a b then a else EMax [a; b])) -> In x (atoms a) \/ In x (atoms b)).
  { destruct (expr_eqb a b); auto. cbn [atoms map concat]. rewrite app_nil_r. intros Q. apply in_app_or in Q. auto. }
  destruct a, b; auto; try (destruct H; fail).
Qed.
Definition within (ps : list string) (e : expr) : Prop := forall x, In x (atoms e) -> In x ps.
Lemma fold_within ps f : (forall a b, within ps a -> within ps b -> within ps (f a b)) -> forall l a, Forall (within ps) l -> within ps a -> within ps (fold_left f l a).
Proof. intros F. induction l as [|b l IH]; intros a H W; cbn; auto. apply Forall_cons_iff in H as [H1 H2]. apply IH; auto. Qed.
Lemma fold1_within ps f l e : (forall a b, within ps a -> within ps b -> within ps (f a b)) -> Forall (within ps) l -> fold1 f l = Some e -> within ps e.
Proof. intros F H E. destruct l as [|a l]; [discriminate|]. injection E as <-. apply Forall_cons_iff in H as [H1 H2]. apply fold_within; auto. Qed.
Lemma w_add ps a b : within ps a -> within ps b -> within ps (sadd a b).
Proof. intros A B x Hx. apply atoms_sadd in Hx as [Hx|Hx]; auto. Qed.
Lemma w_mul ps a b : within ps a -> within ps b -> within ps (smul a b).
Proof. intros A B x Hx. apply atoms_smul in Hx as [Hx|Hx]; auto. Qed.
Lemma w_min ps a b : within ps a -> within ps b -> within ps (smin a b).
Proof. intros A B x Hx. apply atoms_smin in Hx as [Hx|Hx]; auto. Qed.
Lemma w_max ps a b : within ps a -> within ps b -> within ps (smax a b).
Proof. intros A B x Hx. apply atoms_smax in Hx as [Hx|Hx]; auto. Qed.
Lemma omap_all {X Y} (f : X -> option Y) (P : Y -> Prop) l : forall bs, (forall x y, In x l -> f x = Some y -> P y) -> omap f l = Some bs -> Forall P bs.
Proof.
  induction l as [|x l IH]; intros bs H E; cbn in E; [injection E as <-; constructor|].
  destruct (f x) as [y|] eqn:Ex; [|discriminate]. destruct (omap f l) as [ys|] eqn:El; [|discriminate]. injection E as <-.
  constructor; [apply (H x y); cbn; auto|]. apply IH; auto. intros z w Hz. apply H. right. exact Hz.
Qed.
Lemma ofilter_all {X Y} (f : X -> option Y) (P : Y -> Prop) l : (forall x y, In x l -> f x = Some y -> P y) -> Forall P (ofilter f l).
Proof.
  induction l as [|x l IH]; intros H; cbn; [constructor|]. assert (K: Forall P (ofilter f l)) by (apply IH; intros z w Hz; apply H; right; exact Hz).
  destruct (f x) as [y|] eqn:Ex; auto. constructor; auto. apply (H x y); cbn; auto.
Qed.
Lemma corners_within ps bs : Forall (fun b => within ps (fst b) /\ within ps (snd b)) bs -> forall acc, within ps acc -> Forall (within ps) (corners bs acc).
Proof.
  induction 1 as [|[lo hi] bs [H1 H2] H IH]; intros acc Ha; cbn; [repeat constructor; exact Ha|].
  apply Forall_app. split; apply IH; apply w_mul; auto.
Qed.
Lemma minmax_within ps A t d : (forall e m, minimum_new_d d ps A t e = Some m -> within ps m) /\ (forall e m, maximum_new_d d ps A t e = Some m -> within ps m).
Proof.
  induction d as [|d [IL IH]]; [split; intros; discriminate|].
  assert (PR: forall l bs, omap (fun a => opt_map2 pair (minimum_new_d d ps A t a) (maximum_new_d d ps A t a)) l = Some bs -> Forall (within ps) (corners bs (EInt 1))).
  { intros l bs E. apply corners_within; [|intros x []]. eapply omap_all; [|exact E]. intros a [u v] _ Q.
    destruct (minimum_new_d d ps A t a) as [u'|] eqn:E1; [|discriminate]. destruct (maximum_new_d d ps A t a) as [v'|] eqn:E2; [|discriminate]. injection Q as <- <-. cbn. eauto. }
  split; intros e m E; destruct e; cbn [minimum_new_d maximum_new_d] in E; try discriminate; try (injection E as <-; intros x []; fail).
  - destruct (existsb (String.eqb x) ps) eqn:Ex.
    + injection E as <-. intros y [<-|[]]. apply existsb_exists in Ex as (z & Hz & Q). apply String.eqb_eq in Q. congruence.
    + destruct (A x) as [a|]; [|discriminate]. destruct t; [destruct (tlb a); [eauto|discriminate]|].
      eapply fold1_within; [apply w_max| |exact E]. apply ofilter_all. eauto.
  - destruct (omap _ l) as [bs|] eqn:El; [|discriminate]. eapply fold1_within; [apply w_add| |exact E]. eapply omap_all; [|exact El]. eauto.
  - destruct (omap _ l) as [bs|] eqn:El; [|discriminate]. eapply fold1_within; [apply w_min| |exact E]. eauto.
  - destruct (omap _ l) as [bs|] eqn:El; [|discriminate]. eapply fold1_within; [apply w_min| |exact E]. eapply omap_all; [|exact El]. eauto.
  - destruct (omap _ l) as [bs|] eqn:El; [|discriminate]. eapply fold1_within; [apply w_min| |exact E]. eapply omap_all; [|exact El]. eauto.
  - destruct (minimum_new_d d ps A t e) as [m'|] eqn:Em; [|discriminate]. injection E as <-. exact (IL _ _ Em).
  - destruct (minimum_new_d d ps A t e) as [m'|] eqn:Em; [|discriminate]. injection E as <-. exact (IL _ _ Em).
  - destruct (existsb (String.eqb x) ps) eqn:Ex.
    + injection E as <-. intros y [<-|[]]. apply existsb_exists in Ex as (z & Hz & Q). apply String.eqb_eq in Q. congruence.
    + destruct (A x) as [a|]; [|discriminate]. destruct t; [destruct (tub a); [eauto|discriminate]|].
      eapply fold1_within; [apply w_min| |exact E]. apply ofilter_all. eauto.
  - destruct (omap _ l) as [bs|] eqn:El; [|discriminate]. eapply fold1_within; [apply w_add| |exact E]. eapply omap_all; [|exact El]. eauto.
  - destruct (omap _ l) as [bs|] eqn:El; [|discriminate]. eapply fold1_within; [apply w_max| |exact E]. eauto.
  - destruct (omap _ l) as [bs|] eqn:El; [|discriminate]. eapply fold1_within; [apply w_max| |exact E]. eapply omap_all; [|exact El]. eauto.
  - destruct (omap _ l) as [bs|] eqn:El; [|discriminate]. eapply fold1_within; [apply w_max| |exact E]. eapply omap_all; [|exact El]. eauto.
  - destruct (maximum_new_d d ps A t e) as [m'|] eqn:Em; [|discriminate]. injection E as <-. exact (IH _ _ Em).
  - destruct (maximum_new_d d ps A t e) as [m'|] eqn:Em; [|discriminate]. injection E as <-. exact (IH _ _ Em).
Qed.

(* ---------------------------------------------------------------- *)
(** ** The smallest and the largest of several bounds *)
Lemma fold_min_le s l : forall a v, ev s (fold_left smin l a) = Fin v -> forall q, In q (a :: l) -> ev s q <> Bad /\ xle (Fin v) (ev s q).
Proof.
  induction l as [|b l IH]; intros a v E q Hq; cbn [fold_left] in E.
  - destruct Hq as [<-|[]]. rewrite E. split; [discriminate|cbn; lia].
  - destruct (IH _ _ E (smin a b)) as [N L]; [left; reflexivity|].
    assert (Q: ev s a <> Bad /\ ev s b <> Bad /\ xle (Fin v) (ev s a) /\ xle (Fin v) (ev s b)).
    { rewrite ev_smin in N, L. destruct (ev s a), (ev s b); cbn in *; repeat split; try congruence; try lia; auto. }
    destruct Q as (Q1 & Q2 & Q3 & Q4). destruct Hq as [<-|[<-|Hq]]; auto. apply (IH _ _ E). right. exact Hq.
Qed.
Lemma fold_max_ge s l : forall a v, ev s (fold_left smax l a) = Fin v -> forall q, In q (a :: l) -> ev s q <> Bad /\ xle (ev s q) (Fin v).
Proof.
  induction l as [|b l IH]; intros a v E q Hq; cbn [fold_left] in E.
  - destruct Hq as [<-|[]]. rewrite E. split; [discriminate|cbn; lia].
  - destruct (IH _ _ E (smax a b)) as [N L]; [left; reflexivity|].
    assert (Q: ev s a <> Bad /\ ev s b <> Bad /\ xle (ev s a) (Fin v) /\ xle (ev s b) (Fin v)).
    { rewrite ev_smax in N, L. destruct (ev s a), (ev s b); cbn in *; repeat split; try congruence; try lia; auto. }
    destruct Q as (Q1 & Q2 & Q3 & Q4). destruct Hq as [<-|[<-|Hq]]; auto. apply (IH _ _ E). right. exact Hq.
Qed.

(* ---------------------------------------------------------------- *)
(** ** Every event comes from an access of a block the execution reaches *)
Definition comes_from (I : nat -> list Z -> option Z) (R : list hdr -> node -> store -> Prop) (x : string) (e : list expr) (j : list Z) : Prop :=
  exists ctx b st1 pre o post st2, R ctx (NBlock b) st1 /\ b = pre ++ o :: post /\ exec_block I st1 pre = Some st2 /\
    In (Acc x e []) (op_acc [] o) /\ evals (env_of st2) e = Some j.
Lemma from_mono I (R R' : list hdr -> node -> store -> Prop) x e j : (forall c b s, R c b s -> exists c', R' c' b s) -> comes_from I R x e j -> comes_from I R' x e j.
Proof. intros H (c & b & s1 & pre & o & post & s2 & A & B). destruct (H _ _ _ A) as [c' A']. exists c', b, s1, pre, o, post, s2. auto. Qed.
Definition explained I R (T : trace) : Prop := forall w x e j, In (Ev w x e j) T -> j = [] \/ comes_from I R x e j.
Lemma rds_explained I R l : explained I R (rds l).
Proof. intros w x e j H. apply in_map_iff in H as (y & Q & _). injection Q as _ _ _ <-. left. reflexivity. Qed.
Lemma asg_explained I R a : explained I R (asg_trace a).
Proof.
  intros w x e j H. apply in_concat in H as (l & Hl & H). apply in_map_iff in Hl as (y & <- & _). apply in_app_iff in H as [H|[H|[]]].
  - eapply rds_explained; eauto.
  - injection H as _ _ _ <-. left. reflexivity.
Qed.
Lemma app_explained I R T1 T2 : explained I R T1 -> explained I R T2 -> explained I R (T1 ++ T2).
Proof. intros A B w x e j H. apply in_app_iff in H as [H|H]; eauto. Qed.
Lemma mono_explained I (R R' : list hdr -> node -> store -> Prop) T : (forall c b s, R c b s -> exists c', R' c' b s) -> explained I R T -> explained I R' T.
Proof. intros H A w x e j K. destruct (A _ _ _ _ K) as [Q|Q]; auto. right. eapply from_mono; eauto. Qed.
Lemma own_explained I R i T : explained I R T -> explained I R (Ev true i [] [] :: T).
Proof. intros A w x e j [H|H]; eauto. injection H as _ _ _ <-. auto. Qed.
Lemma op_events st ctx o w x e j : In (Ev w x e j) (op_trace st o) -> j = [] \/ In (Acc x e ctx) (op_acc ctx o) /\ evals (env_of st) e = Some j.
Proof.
  unfold op_trace, op_acc. intros H. apply in_app_iff in H as [H|H].
  - apply in_concat in H as (l & Hl & H). apply in_map_iff in Hl as (a & <- & Ha). destruct a as [z|y sub]; [destruct H|]. cbn in H. apply in_app_iff in H as [H|H].
    + left. apply in_map_iff in H as (z & Q & _). injection Q as _ _ _ <-. reflexivity.
    + right. destruct (evals (env_of st) sub) as [i|] eqn:E; [|destruct H]. destruct H as [H|[]]. injection H as _ <- <- <-. split; [|exact E].
      apply in_app_iff. left. apply in_concat. exists [Acc y sub ctx]. split; [apply in_map_iff; exists (ORead y sub); auto|left; reflexivity].
  - apply in_app_iff in H as [H|H].
    + left. apply in_map_iff in H as (z & Q & _). injection Q as _ _ _ <-. reflexivity.
    + right. destruct (evals (env_of st) (o_sub o)) as [i|] eqn:E; [|destruct H]. destruct H as [H|[]]. injection H as _ <- <- <-. split; [|exact E].
      apply in_app_iff. right. left. reflexivity.
Qed.
Lemma block_explained I b0 st0 : forall b pre st, b0 = pre ++ b -> exec_block I st0 pre = Some st ->
  explained I (reaches I (NBlock b0) st0) (block_trace I st b).
Proof.
  induction b as [|o b IH]; intros pre st E X; [intros w x e j []|]. cbn [block_trace].
  intros w x e j H. apply in_app_iff in H as [H|H].
  - destruct (op_events st [] o w x e j H) as [Q|[Q1 Q2]]; auto. right. exists [], b0, st0, pre, o, b, st. split; [constructor|]. auto.
  - destruct (exec_op I st o) as [st1|] eqn:Eo; [|destruct H]. eapply (IH (pre ++ [o]) st1); eauto.
    + rewrite <- app_assoc. exact E.
    + clear -X Eo. revert st0 X. induction pre as [|p pre IHp]; intros st0 X; cbn in *; [injection X as ->; rewrite Eo; reflexivity|].
      destruct (exec_op I st0 p) as [s|]; [|discriminate]. apply IHp; auto.
Qed.
Lemma events_explained I :
  (forall n st o st' T, runT I n st o st' T -> explained I (reaches I n st) T) /\
  (forall s st o st' T, runsT I s st o st' T -> explained I (reachesS I s st) T) /\
  (forall b st o st' T, runbT I b st o st' T -> explained I (reachesB I b st) T) /\
  (forall s st o st' T, runwT I s st o st' T -> explained I (reachesW I s st) T) /\
  (forall i c u s st o st' T, runlT I i c u s st o st' T -> forall init, explained I (reachesL I {| h_i := i; h_init := init; h_c := c; h_u := u; h_body := s |} st) T).
Proof.
  destruct (trace_run I) as (TR & TS & _).
  apply runT_mind.
  - intros b st st' E. apply (block_explained I b st b []); reflexivity.
  - intros s st o st' T _ IH. eapply mono_explained; [|exact IH]. intros ? ? ? ?; eexists; apply V_seq; eauto.
  - intros s st o st' T _ IH. eapply mono_explained; [|exact IH]. intros ? ? ? ?; eexists; apply V_if; eauto.
  - intros s st o st' T _ IH. eapply mono_explained; [|exact IH]. intros ? ? ? ?; eexists; apply V_while; eauto.
  - intros k i init c u s st v o st' T E _ IH. apply app_explained; [apply rds_explained|]. apply own_explained. eapply mono_explained; [|exact (IH init)]. intros ? ? ? ?; eexists; eapply V_loop; eauto.
  - intros st w x e j [].
  - intros st w x e j [].
  - intros r st w x e j [].
  - intros st w x e j [].
  - intros n a r st st1 st2 o st' T1 T2 R1 IH1 E _ IH2. apply app_explained; [|apply app_explained; [apply asg_explained|]].
    + eapply mono_explained; [|exact IH1]. intros ? ? ? ?; eexists; apply V_head; eauto.
    + eapply mono_explained; [|exact IH2]. intros ? ? ? ?; eexists; eapply V_tail; eauto.
  - intros n a r st o st' T _ IH _. eapply mono_explained; [|exact IH]. intros ? ? ? ?; eexists; apply V_head; eauto.
  - intros st w x e j [].
  - intros c s r st o st' T E _ IH. apply app_explained; [apply rds_explained|]. eapply mono_explained; [|exact IH]. intros ? ? ? ?; eexists; apply V_true; eauto.
  - intros c s r st o st' T E _ IH. apply app_explained; [apply rds_explained|]. eapply mono_explained; [|exact IH]. intros ? ? ? ?; eexists; apply V_false; eauto.
  - intros s st o1 st1 o st' T1 T2 R1 IH1 Ho _ IH2. apply app_explained.
    + eapply mono_explained; [|exact IH1]. intros ? ? ? ?; eexists; apply V_wnow; eauto.
    + eapply mono_explained; [|exact IH2]. intros ? ? ? ?; eexists; eapply V_wnext; eauto.
  - intros s st st' T _ IH. eapply mono_explained; [|exact IH]. intros ? ? ? ?; eexists; apply V_wnow; eauto.
  - intros s st r st' T _ IH. eapply mono_explained; [|exact IH]. intros ? ? ? ?; eexists; apply V_wnow; eauto.
  - intros i c u s st E init. apply rds_explained.
  - intros i c u s st o1 st1 v o st' T1 T2 Ec R1 IH1 Ho Eu _ IH2 init. apply app_explained; [apply rds_explained|]. apply app_explained; [|apply app_explained; [apply rds_explained|apply own_explained]].
    + eapply mono_explained; [|exact IH1]. intros ? ? ? ?; eexists; apply V_lnow; eauto.
    + eapply mono_explained; [|exact (IH2 init)]. intros ? ? ? ?; eexists; eapply V_lnext; eauto.
  - intros i c u s st st' T Ec _ IH init. apply app_explained; [apply rds_explained|]. eapply mono_explained; [|exact IH]. intros ? ? ? ?; eexists; apply V_lnow; eauto.
  - intros i c u s st r st' T Ec _ IH init. apply app_explained; [apply rds_explained|]. eapply mono_explained; [|exact IH]. intros ? ? ? ?; eexists; apply V_lnow; eauto.
Qed.

(* ---------------------------------------------------------------- *)
(** ** What is reached was seen by the analysis, and parameters still have their value *)
Lemma op_acc_ctx c1 c2 o x e : In (Acc x e c1) (op_acc c1 o) -> In (Acc x e c2) (op_acc c2 o).
Proof.
  unfold op_acc. rewrite !in_app_iff. intros [H|[H|[]]]; [left|right; left; congruence].
  apply in_concat in H as (l & Hl & H). apply in_map_iff in Hl as (a & <- & Ha). apply in_concat. exists (operand_acc c2 a). split; [apply in_map; exact Ha|].
  destruct a as [z|y sub]; [destruct H|]. destruct H as [H|[]]. left. congruence.
Qed.
Definition seen (l : list access) (c0 ctx : list hdr) (m : node) : Prop := forall b o x e, m = NBlock b -> In o b -> In (Acc x e []) (op_acc [] o) -> In (Acc x e (c0 ++ ctx)) l.
Lemma seen_incl l l' c0 ctx m : incl l l' -> seen l c0 ctx m -> seen l' c0 ctx m.
Proof. intros H S b o x e E Ho Ha. apply H. eapply S; eauto. Qed.
Lemma reached_seen I :
  (forall n st ctx m st', reaches I n st ctx m st' -> forall c0, seen (accN c0 n) c0 ctx m) /\
  (forall s st ctx m st', reachesS I s st ctx m st' -> forall c0, seen (accS c0 s) c0 ctx m) /\
  (forall b st ctx m st', reachesB I b st ctx m st' -> forall c0, seen (accB c0 b) c0 ctx m) /\
  (forall s st ctx m st', reachesW I s st ctx m st' -> forall c0, seen (accS c0 s) c0 ctx m) /\
  (forall h st ctx m st', reachesL I h st ctx m st' -> forall c0, seen (accS (c0 ++ [h]) (h_body h)) c0 ctx m).
Proof.
  apply reach_mind; intros; cbn [accN accS accB]; eauto.
  - intros b o x e -> Ho Ha. cbn [accN]. rewrite app_nil_r. apply in_concat. exists (op_acc c0 o). split; [apply in_map; exact Ho|eapply op_acc_ctx; exact Ha].
  - eapply seen_incl; [|eauto]. intros y Hy. apply in_or_app. auto.
  - eapply seen_incl; [|eauto]. intros y Hy. apply in_or_app. auto.
  - eapply seen_incl; [|eauto]. intros y Hy. apply in_or_app. auto.
  - eapply seen_incl; [|eauto]. intros y Hy. apply in_or_app. auto.
  - intros b' o' x' e' E Ho Ha. specialize (H (c0 ++ [h]) b' o' x' e' E Ho Ha). rewrite <- app_assoc in H. exact H.
Qed.
Lemma reached_keeps I y :
  (forall n st ctx m st', reaches I n st ctx m st' -> ~ In y (nwrites n) -> forall i, st' y i = st y i) /\
  (forall s st ctx m st', reachesS I s st ctx m st' -> ~ In y (swrites s) -> forall i, st' y i = st y i) /\
  (forall b st ctx m st', reachesB I b st ctx m st' -> ~ In y (bwrites b) -> forall i, st' y i = st y i) /\
  (forall s st ctx m st', reachesW I s st ctx m st' -> ~ In y (swrites s) -> forall i, st' y i = st y i) /\
  (forall h st ctx m st', reachesL I h st ctx m st' -> ~ In y (h_i h :: swrites (h_body h)) -> forall i, st' y i = st y i).
Proof.
  apply reach_mind; intros; cbn [nwrites swrites bwrites h_i h_body In] in *; auto.
  - rewrite H; auto. apply IRFacts.wr_other. left. intros ->. apply H0. auto.
  - apply H. intros Q. apply H0, in_or_app. auto.
  - rewrite H.
    + rewrite (exec_assigns_writes _ _ _ e y); [|intros Q; apply H0, in_or_app; right; apply in_or_app; auto]. eapply run_writes; [eassumption|]. intros Q. apply H0, in_or_app. auto.
    + intros Q. apply H0, in_or_app. right. apply in_or_app. auto.
  - apply H. intros Q. apply H0, in_or_app. auto.
  - apply H. intros Q. apply H0, in_or_app. auto.
  - rewrite H; auto. eapply runs_writes; eassumption.
  - rewrite H; auto. rewrite IRFacts.wr_other; [|left; intros Q; apply H0; left; exact Q]. eapply runs_writes; [eassumption|]. intros Q. apply H0. right. exact Q.
Qed.
Lemma reached_writes I :
  (forall n st ctx m st', reaches I n st ctx m st' -> incl (nwrites m) (nwrites n)) /\
  (forall s st ctx m st', reachesS I s st ctx m st' -> incl (nwrites m) (swrites s)) /\
  (forall b st ctx m st', reachesB I b st ctx m st' -> incl (nwrites m) (bwrites b)) /\
  (forall s st ctx m st', reachesW I s st ctx m st' -> incl (nwrites m) (swrites s)) /\
  (forall h st ctx m st', reachesL I h st ctx m st' -> incl (nwrites m) (swrites (h_body h))).
Proof.
  apply reach_mind; intros; cbn [nwrites swrites bwrites h_body] in *; auto; try apply incl_refl; intros z Hz; specialize (H z Hz); rewrite ?in_app_iff; cbn [In]; auto.
Qed.
Lemma exec_keeps I : forall b st st' y i, exec_block I st b = Some st' -> ~ In y (map o_out b) -> st' y i = st y i.
Proof.
  induction b as [|o b IH]; intros st st' y i E N; cbn in *; [congruence|]. destruct (exec_op I st o) as [s|] eqn:Eo; [|discriminate].
  rewrite (IH s st' y i E) by auto. unfold exec_op in Eo. destruct (reads_in st (o_ins o)); [|discriminate]. destruct (evals (env_of st) (o_sub o)); [|discriminate].
  destruct (I (o_code o) l); [|discriminate]. injection Eo as <-. apply IRFacts.wr_other. left. intros Q. apply N. left. congruence.
Qed.

(* ---------------------------------------------------------------- *)
(** ** Soundness *)
Lemma omap_in {X Y} (f : X -> option Y) l : forall bs x, omap f l = Some bs -> In x l -> exists y, f x = Some y /\ In y bs.
Proof.
  induction l as [|a l IH]; intros bs x E H; [destruct H|]. cbn in E. destruct (f a) as [y|] eqn:Ea; [|discriminate]. destruct (omap f l) as [ys|] eqn:El; [|discriminate]. injection E as <-.
  destruct H as [<-|H]; [exists y; split; auto; left; auto|]. destruct (IH _ _ eq_refl H) as (z & Hz & Hi). exists z. split; auto. right. auto.
Qed.
Lemma omap_nth {X Y} (f : X -> option Y) l : forall bs k y, omap f l = Some bs -> nth_error bs k = Some y -> exists x, nth_error l k = Some x /\ f x = Some y.
Proof.
  induction l as [|a l IH]; intros bs k y E H; cbn in E; [injection E as <-; destruct k; discriminate|].
  destruct (f a) as [z|] eqn:Ea; [|discriminate]. destruct (omap f l) as [ys|] eqn:El; [|discriminate]. injection E as <-.
  destruct k; cbn in *; [exists a; split; congruence|eauto].
Qed.
Lemma omap_len {X Y} (f : X -> option Y) l : forall bs, omap f l = Some bs -> List.length bs = List.length l.
Proof.
  induction l as [|a l IH]; intros bs E; cbn in E; [injection E as <-; reflexivity|].
  destruct (f a); [|discriminate]. destruct (omap f l) eqn:El; [|discriminate]. injection E as <-. cbn. f_equal. auto.
Qed.
Lemma evals_at s : forall e j k z, evals s e = Some j -> nth_error j k = Some z -> (k < List.length e)%nat /\ eval s (nth k e (EInt 0)) = Some z.
Proof.
  induction e as [|a e IH]; intros j k z E H; cbn in E; [injection E as <-; destruct k; discriminate|].
  destruct (eval s a) as [v|] eqn:Ea; [|discriminate]. destruct (evals s e) as [vs|] eqn:Ee; [|discriminate]. injection E as <-.
  destruct k; cbn in H; cbn [List.length nth]; [split; [lia|congruence]|]. destruct (IH _ _ _ eq_refl H). split; [lia|auto].
Qed.
Lemma rank_ge x l : forall a, In a l -> a_x a = x -> (List.length (a_sub a) <= fold_right Nat.max 0 (map (fun a => List.length (a_sub a)) (filter (fun a => String.eqb (a_x a) x) l)))%nat.
Proof.
  induction l as [|b l IH]; intros a H E; [destruct H|]. destruct H as [<-|H]; cbn [filter].
  - rewrite E, String.eqb_refl. cbn. lia.
  - specialize (IH a H E). destruct (String.eqb (a_x b) x); cbn; lia.
Qed.
Lemma fin_some o e : finite o = Some e -> o = Some e.
Proof. unfold finite. destruct o as [a|]; [|discriminate]. destruct (has_inf a); [discriminate|auto]. Qed.

Lemma range_sound I consts inv is_int A T p st o st' Tr x r w e j :
  tameN consts inv A T p -> good (env_of st) (nwrites p) A ->
  (forall a, In a (accN [] p) -> a_x a = x -> forallb no_trunc (a_sub a) = true /\ no_trunc_A (assums_at consts inv A T (a_ctx a))) ->
  mem_range is_int (assums_at consts inv A T) p x = Some r -> runT I p st o st' Tr -> In (Ev w x e j) Tr ->
  (List.length j <= List.length r)%nat /\
  forall k lo hi z, nth_error r k = Some (lo, hi) -> nth_error j k = Some z ->
    (forall a, eval (env_of st) lo = Some a -> a <= z) /\ (forall b, eval (env_of st) hi = Some b -> z <= b).
Proof.
  intros W G NT MR R HE. destruct (proj1 (events_explained I) _ _ _ _ _ R w x e j HE) as [->|(ctx & b & st1 & pre & op & post & st2 & RC & -> & X & HA & EV)].
  { split; [cbn; lia|]. intros k lo hi z _ Q. destruct k; discriminate. }
  assert (Ho: In op (pre ++ op :: post)) by (apply in_or_app; right; left; reflexivity).
  pose proof (proj1 (reached_seen I) _ _ _ _ _ RC [] _ op x e eq_refl Ho HA) as HS. cbn [app] in HS.
  destruct (NT _ HS eq_refl) as [NT1 NT2]. cbn [a_sub a_ctx] in NT1, NT2.
  assert (G2: sat_tight (env_of st2) (assums_at consts inv A T ctx)).
  { assert (G1: holds (env_of st2) (assums_at consts inv A T ctx)).
    { eapply good_holds, good_frame; [|apply (proj1 (reach_sound I consts inv) _ _ _ _ _ RC A T W G)]. intros y Hy. unfold env_of. eapply exec_keeps; [exact X|].
      intros Q. apply Hy. cbn [nwrites]. rewrite map_app, in_app_iff. auto. }
    intros y a Ha. destruct (G1 y a Ha) as [L U]. split; intros q Hq; [apply L; unfold lowers; rewrite Hq; right; apply in_or_app; right; left; reflexivity|apply U; unfold uppers; rewrite Hq; right; apply in_or_app; right; left; reflexivity]. }
  assert (EL: List.length j = List.length e). { clear -EV. revert j EV. induction e as [|a e IH]; intros j EV; cbn in EV; [injection EV as <-; reflexivity|]. destruct (eval (env_of st2) a); [|discriminate]. destruct (evals (env_of st2) e); [|discriminate]. injection EV as <-. cbn. f_equal. auto. }
  unfold mem_range in MR. pose proof (rank_ge x (accN [] p) _ HS eq_refl) as RK. cbn [a_sub] in RK. fold (rank_of p x) in RK.
  destruct (rank_of p x) as [|d] eqn:Er; [discriminate|]. split; [rewrite (omap_len _ _ _ MR), seq_length; lia|].
  intros k lo hi z Hk Hz. destruct (omap_nth _ _ _ _ _ MR Hk) as (k' & Hk' & D). assert (k' = k).
  { assert (N: (k < S d)%nat) by (pose proof (proj1 (nth_error_Some (List.seq 0 (S d)) k)) as Q; rewrite seq_length in Q; apply Q; rewrite Hk'; discriminate).
    rewrite (nth_error_nth' _ 0%nat) in Hk' by (rewrite seq_length; exact N). rewrite seq_nth in Hk' by exact N. injection Hk' as <-. reflexivity. } subst k'.
  destruct (evals_at _ _ _ _ _ EV Hz) as [KL EK].
  assert (HW: In (Acc x e ctx) (with_dim p x k)). { unfold with_dim. apply filter_In. split; [exact HS|]. cbn [a_x a_sub]. rewrite String.eqb_refl. apply Nat.ltb_lt. exact KL. }
  assert (NTk: no_trunc (nth k e (EInt 0)) = true) by (rewrite forallb_forall in NT1; apply NT1, nth_In, KL).
  unfold dim_range in D. destruct (omap (low1 is_int (assums_at consts inv A T) p k) (with_dim p x k)) as [[|l ls]|] eqn:E1; try discriminate.
  destruct (omap (high1 is_int (assums_at consts inv A T) p k) (with_dim p x k)) as [[|h hs]|] eqn:E2; try discriminate. injection D as <- <-.
  assert (PA: forall q, within (params is_int p) q -> ev (env_of st2) q = ev (env_of st) q).
  { intros q Hq. apply ev_agree. intros y Hy. specialize (Hq y Hy). unfold params in Hq. apply filter_In in Hq as [_ Hq]. apply andb_true_iff in Hq as [_ Hq]. apply negb_true_iff in Hq.
    assert (Ny: ~ In y (nwrites p)). { intros Q. enough (existsb (String.eqb y) (nwrites p) = true) by congruence. apply existsb_exists. exists y. split; auto. apply String.eqb_refl. }
    unfold env_of. rewrite (exec_keeps _ _ _ _ y [] X).
    - apply (proj1 (reached_keeps I y) _ _ _ _ _ RC Ny).
    - intros Q. apply Ny. apply (proj1 (reached_writes I) _ _ _ _ _ RC). cbn [nwrites]. rewrite map_app, in_app_iff. auto. }
  pose proof (minmax_new_sound (env_of st2) (assums_at consts inv A T ctx) (params is_int p) true max_depth G2 NT2 _ NTk) as [LO HI].
  apply eval_ev in EK. split; intros v Ev; apply eval_ev in Ev.
  - destruct (omap_in _ _ _ _ E1 HW) as (q & Hq & Hi). unfold low1 in Hq. apply fin_some in Hq. cbn [a_sub a_ctx] in Hq.
    destruct (fold_min_le (env_of st) ls l v Ev q Hi) as [NB LE]. specialize (LO _ Hq).
    rewrite EK, PA in LO by exact (proj1 (minmax_within _ _ _ _) _ _ Hq). specialize (LO ltac:(discriminate) NB). destruct (ev (env_of st) q); cbn in *; try contradiction; lia.
  - destruct (omap_in _ _ _ _ E2 HW) as (q & Hq & Hi). unfold high1 in Hq. apply fin_some in Hq. cbn [a_sub a_ctx] in Hq.
    destruct (fold_max_ge (env_of st) hs h v Ev q Hi) as [NB LE]. specialize (HI _ Hq).
    rewrite EK, PA in HI by exact (proj2 (minmax_within _ _ _ _) _ _ Hq). specialize (HI ltac:(discriminate) NB). destruct (ev (env_of st) q); cbn in *; try contradiction; lia.
Qed.
