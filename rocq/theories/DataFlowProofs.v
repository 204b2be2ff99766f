(** Proofs about the emission order of a block's nodes (DataFlow.v). *)
From Coq Require Import List String ZArith Bool Arith Lia Permutation.
From Verif Require Import Sym IR DataFlow.
Import ListNotations.
Local Open Scope nat_scope.

Definition before {A} (l : list A) (x y : A) : Prop := exists l1 l2 l3, l = l1 ++ x :: l2 ++ y :: l3.
Definition code_ins (k : dkind) : option (list string) :=
  match k with KTask _ i _ => Some i | KLib _ i _ => Some i | _ => None end.
Definition code_outs (k : dkind) : option (list string) :=
  match k with KTask _ _ o => Some [o] | KLib _ _ o => Some o | _ => None end.
Definition edge (g : dfg) (x y : nat) : Prop := exists e, In e (g_edges g) /\ m_src e = x /\ m_dst e = y.
(** what the validators ask for (tasklet.cpp:20-59, memlet.cpp) *)
Record wf (g : dfg) : Prop := {
  wf_ids : NoDup (ids g);
  wf_ends : forall e, In e (g_edges g) -> In (m_src e) (ids g) /\ In (m_dst e) (ids g);
  wf_in : forall x k ins, kind_of g x = Some k -> code_ins k = Some ins ->
    incl (map m_dconn (in_edges g x)) ins /\ NoDup (map m_dconn (in_edges g x));
  wf_out : forall x k outs, kind_of g x = Some k -> code_outs k = Some outs ->
    incl (map m_sconn (out_edges g x)) outs /\ NoDup (map m_sconn (out_edges g x)) }.
Definition acyclic (g : dfg) : Prop := exists r : nat -> nat, forall x y, edge g x y -> r x < r y.

(* ---------- lists ---------- *)
Lemma mem_In x l : mem x l = true <-> In x l.
Proof.
  unfold mem. rewrite existsb_exists. split.
  - intros (y & Hy & E). apply Nat.eqb_eq in E. subst; auto.
  - intros H. exists x. rewrite Nat.eqb_refl. auto.
Qed.
Lemma mem_false x l : mem x l = false <-> ~ In x l.
Proof. rewrite <- mem_In. destruct (mem x l); split; congruence. Qed.
Lemma memP_In x l : memP x l = true <-> In x l.
Proof.
  unfold memP. rewrite existsb_exists. split.
  - intros (y & Hy & E). apply andb_true_iff in E. destruct E as [E1 E2].
    apply Nat.eqb_eq in E1. apply Nat.eqb_eq in E2. destruct x, y; simpl in *; subst; auto.
  - intros H. exists x. rewrite !Nat.eqb_refl. auto.
Qed.
Lemma dedup_In x l : forall seen, In x (dedup seen l) <-> In x l /\ ~ In x seen.
Proof.
  induction l as [|a l IH]; intros seen; simpl; [firstorder|].
  destruct (mem a seen) eqn:E.
  - rewrite IH. apply mem_In in E. split; [intros []; auto|intros [[->|?] ?]; [contradiction|auto]].
  - apply mem_false in E. simpl. rewrite IH. simpl. split.
    + intros [->|[? ?]]; split; auto.
    + intros [[->|?] ?]; auto. destruct (Nat.eq_dec a x) as [->|?]; auto.
      right; split; auto. intros [?|?]; auto.
Qed.
Lemma dedup_NoDup l : forall seen, NoDup (dedup seen l).
Proof.
  induction l as [|a l IH]; intros seen; simpl; [constructor|].
  destruct (mem a seen); auto. constructor; auto. rewrite dedup_In. simpl. intros [_ H]. apply H. auto.
Qed.
Lemma insert_perm {A} (lt : A -> A -> bool) x l : Permutation (x :: l) (insert lt x l).
Proof.
  induction l as [|y l IH]; simpl; [auto|]. destruct (lt y x); auto.
  eapply perm_trans; [apply perm_swap|]. constructor; auto.
Qed.
Lemma isort_perm {A} (lt : A -> A -> bool) l : Permutation l (isort lt l).
Proof.
  induction l as [|x l IH]; simpl; [constructor|].
  eapply perm_trans; [|apply insert_perm]. constructor; auto.
Qed.
Lemma index_Some {A} (p : A -> bool) l j : index p l = Some j -> exists x, nth_error l j = Some x /\ p x = true.
Proof.
  revert j; induction l as [|a l IH]; simpl; intros j H; [discriminate|].
  destruct (p a) eqn:E; [injection H as <-; exists a; auto|].
  destruct (index p l) eqn:E'; [|discriminate]. injection H as <-. simpl. auto.
Qed.
Lemma index_total {A} (p : A -> bool) l x : In x l -> p x = true -> exists j, index p l = Some j.
Proof.
  induction l as [|a l IH]; simpl; intros H E; [contradiction|].
  destruct (p a) eqn:E'; [eauto|]. destruct H as [->|H]; [congruence|].
  destruct (IH H E) as [j ->]. simpl; eauto.
Qed.
Lemma assoc_In {B} x (l : list (nat * B)) b : assoc x l = Some b -> In (x, b) l.
Proof.
  induction l as [|[y c] l IH]; simpl; intros H; [discriminate|].
  destruct (Nat.eqb_spec x y); [injection H as <-; subst; auto|auto].
Qed.
Lemma assoc_total {B} x (l : list (nat * B)) : In x (map fst l) -> exists b, assoc x l = Some b.
Proof.
  induction l as [|[y c] l IH]; simpl; intros H; [contradiction|].
  destruct (Nat.eqb_spec x y); [eauto|]. destruct H as [?|H]; [congruence|auto].
Qed.
Lemma assoc_NoDup {B} x (l : list (nat * B)) b : NoDup (map fst l) -> In (x, b) l -> assoc x l = Some b.
Proof.
  induction l as [|[y c] l IH]; simpl; intros N H; [contradiction|].
  inversion N; subst. destruct H as [E|H].
  - injection E as <- <-. rewrite Nat.eqb_refl. auto.
  - destruct (Nat.eqb_spec x y); [|auto]. subst. exfalso. apply H2. apply (in_map fst) in H. exact H.
Qed.
Lemma before_cons {A} (l : list A) x y a : before l x y -> before (a :: l) x y.
Proof. intros (l1 & l2 & l3 & ->). exists (a :: l1), l2, l3. reflexivity. Qed.
Lemma before_hd {A} (l : list A) x y : In y l -> before (x :: l) x y.
Proof. intros H. apply in_split in H. destruct H as (l2 & l3 & ->). exists [], l2, l3. reflexivity. Qed.
Lemma before_app_l {A} (l m : list A) x y : before l x y -> before (l ++ m) x y.
Proof. intros (l1 & l2 & l3 & ->). exists l1, l2, (l3 ++ m). rewrite <- app_assoc. simpl. rewrite <- app_assoc. reflexivity. Qed.
Lemma before_app_r {A} (l m : list A) x y : before m x y -> before (l ++ m) x y.
Proof. intros (l1 & l2 & l3 & ->). exists (l ++ l1), l2, l3. rewrite <- app_assoc. reflexivity. Qed.
Lemma before_app {A} (l m : list A) x y : In x l -> In y m -> before (l ++ m) x y.
Proof.
  intros H1 H2. apply in_split in H1. apply in_split in H2.
  destruct H1 as (a & b & ->), H2 as (c & d & ->).
  exists a, (b ++ c), d. rewrite <- app_assoc. simpl. rewrite <- app_assoc. reflexivity.
Qed.
Lemma before_In {A} (l : list A) x y : before l x y -> In x l /\ In y l.
Proof. intros (l1 & l2 & l3 & ->). split; apply in_or_app; right; simpl; auto. right. apply in_or_app; right; simpl; auto. Qed.
Lemma NoDup_app_iff {A} (l m : list A) : NoDup (l ++ m) <-> NoDup l /\ NoDup m /\ (forall x, In x l -> ~ In x m).
Proof.
  induction l as [|a l IH]; simpl.
  - split; [intros H; repeat split; auto; constructor|intros (_ & H & _); auto].
  - split.
    + intros H. inversion H; subst. rewrite IH in H3. destruct H3 as (N1 & N2 & D).
      rewrite in_app_iff in H2. repeat split; auto.
      * constructor; auto.
      * intros x [->|Hx] Hm; [apply H2; auto|apply (D x); auto].
    + intros (N1 & N2 & D). inversion N1; subst. constructor.
      * rewrite in_app_iff. intros [?|?]; [auto|apply (D a); auto].
      * rewrite IH. repeat split; auto.
Qed.

Section G.
Variable g : dfg.
Hypothesis W : wf g.
Definition multi (x : nat) : Prop := 1 < outdeg g x.

Lemma in_edges_In e x : In e (in_edges g x) <-> In e (g_edges g) /\ m_dst e = x.
Proof. unfold in_edges. rewrite filter_In, Nat.eqb_eq. tauto. Qed.
Lemma out_edges_In e x : In e (out_edges g x) <-> In e (g_edges g) /\ m_src e = x.
Proof. unfold out_edges. rewrite filter_In, Nat.eqb_eq. tauto. Qed.

Lemma code_preds_In p x ins : incl (map m_dconn (in_edges g x)) ins -> NoDup (map m_dconn (in_edges g x)) ->
  (In p (dedup [] (flat_map (fun c => match find (fun e => String.eqb (m_dconn e) c) (in_edges g x) with Some e => [m_src e] | None => [] end) ins))
   <-> edge g p x).
Proof.
  intros HI HN. rewrite dedup_In, in_flat_map. split.
  - intros [(c & Hc & H) _]. destruct (find _ _) as [e|] eqn:E; [|contradiction].
    destruct H as [<-|[]]. apply find_some in E. destruct E as [E _]. apply in_edges_In in E. exists e. tauto.
  - intros (e & He & <- & Hx). split; [|auto]. exists (m_dconn e).
    assert (Hi : In e (in_edges g x)) by (apply in_edges_In; auto).
    split; [apply HI, in_map; auto|].
    destruct (find _ _) as [e'|] eqn:E.
    + apply find_some in E. destruct E as [E1 E2]. apply String.eqb_eq in E2.
      assert (e = e') as <-; [|simpl; auto].
      clear -HN Hi E1 E2. induction (in_edges g x) as [|a l IH]; [contradiction|].
      simpl in HN. inversion HN; subst. destruct Hi as [->|Hi], E1 as [->|E1]; auto.
      * exfalso. apply H1. rewrite <- E2. apply in_map; auto.
      * exfalso. apply H1. rewrite E2. apply in_map; auto.
    + exfalso. apply (find_none _ _ E) in Hi. rewrite String.eqb_refl in Hi. discriminate.
Qed.
Lemma preds_In p x : In p (preds g x) <-> edge g p x.
Proof.
  unfold preds. destruct (kind_of g x) as [[d|d z|c ins o|c ins o]|] eqn:K;
    try (destruct (wf_in _ W _ _ _ K eq_refl) as [HI HN]; apply code_preds_In; auto).
  all: assert (E : forall y, In y (isort (prio_lt g) (dedup [] (map m_src (in_edges g x)))) <-> In y (dedup [] (map m_src (in_edges g x))))
    by (intros y; split; apply Permutation_in; [apply Permutation_sym|]; apply isort_perm).
  all: rewrite E, dedup_In, in_map_iff; split;
    [intros [(e & <- & H) _]; apply in_edges_In in H; exists e; tauto
    |intros (e & He & <- & Hx); split; [|auto]; exists e; split; auto; apply in_edges_In; auto].
Qed.

Lemma preds_NoDup x : NoDup (preds g x).
Proof.
  unfold preds. destruct (kind_of g x) as [[d|d z|c ins o|c ins o]|]; try apply dedup_NoDup;
    eapply Permutation_NoDup; try apply isort_perm; apply dedup_NoDup.
Qed.
Lemma edge_ids x y : edge g x y -> In x (ids g) /\ In y (ids g).
Proof. intros (e & He & <- & <-). apply (wf_ends _ W); auto. Qed.
Lemma edge_out x y : edge g x y -> outdeg g x <> 0.
Proof.
  intros (e & He & <- & <-). unfold outdeg.
  assert (H : In e (out_edges g (m_src e))) by (apply out_edges_In; auto).
  destruct (out_edges g (m_src e)); [contradiction|discriminate].
Qed.
Lemma out_one x y z : outdeg g x = 1 -> edge g x y -> edge g x z -> y = z.
Proof.
  intros H (e & He & <- & <-) (f & Hf & Ef & <-). unfold outdeg in H.
  assert (H1 : In e (out_edges g (m_src e))) by (apply out_edges_In; auto).
  assert (H2 : In f (out_edges g (m_src e))) by (apply out_edges_In; auto).
  destruct (out_edges g (m_src e)) as [|a [|b l]]; try discriminate.
  destruct H1 as [->|[]], H2 as [->|[]]; auto.
Qed.
Lemma code_dep cur succ outs : incl (map m_sconn (out_edges g cur)) outs -> edge g cur succ ->
  exists j, match find (fun e => Nat.eqb (m_dst e) succ) (out_edges g cur) with
            | Some e => index (fun c => String.eqb (m_sconn e) c) outs | None => None end = Some j.
Proof.
  intros HI (e & He & Hs & Hd). destruct (find _ _) as [e'|] eqn:E.
  - apply find_some in E. destruct E as [E _]. apply index_total with (x := m_sconn e'); [|apply String.eqb_refl].
    apply HI, in_map; auto.
  - exfalso. assert (H : In e (out_edges g cur)) by (apply out_edges_In; auto).
    apply (find_none _ _ E) in H. rewrite Hd, Nat.eqb_refl in H. discriminate.
Qed.
Lemma dep_total cur succ : edge g cur succ -> exists j, dep_id g cur succ = Some j.
Proof.
  intros H. unfold dep_id. destruct (kind_of g cur) as [[d|d z|c ins o|c ins o]|] eqn:K;
    try (apply code_dep; auto; eapply (proj1 (wf_out _ W _ _ _ K eq_refl)));
    (apply index_total with (x := succ); [|apply Nat.eqb_refl]);
    (eapply Permutation_in; [apply isort_perm|]); rewrite dedup_In; (split; [|auto]);
    destruct H as (e & He & Hs & Hd); rewrite <- Hd; apply in_map, out_edges_In; auto.
Qed.
Lemma code_dep_inj cur s1 s2 outs j : NoDup (map m_sconn (out_edges g cur)) ->
  match find (fun e => Nat.eqb (m_dst e) s1) (out_edges g cur) with
            | Some e => index (fun c => String.eqb (m_sconn e) c) outs | None => None end = Some j ->
  match find (fun e => Nat.eqb (m_dst e) s2) (out_edges g cur) with
            | Some e => index (fun c => String.eqb (m_sconn e) c) outs | None => None end = Some j -> s1 = s2.
Proof.
  intros HN H1 H2. destruct (find _ _) as [e1|] eqn:E1 in H1; [|discriminate].
  destruct (find _ _) as [e2|] eqn:E2 in H2; [|discriminate].
  apply find_some in E1. apply find_some in E2. destruct E1 as [I1 D1], E2 as [I2 D2].
  apply Nat.eqb_eq in D1. apply Nat.eqb_eq in D2. subst.
  apply index_Some in H1. apply index_Some in H2.
  destruct H1 as (a & Ha & Ea), H2 as (b & Hb & Eb). rewrite Ha in Hb. injection Hb as <-.
  apply String.eqb_eq in Ea. apply String.eqb_eq in Eb.
  assert (e1 = e2) as ->; [|reflexivity].
  assert (E : m_sconn e1 = m_sconn e2) by congruence. clear -HN I1 I2 E.
  induction (out_edges g cur) as [|a l IH]; [contradiction|]. simpl in HN. inversion HN; subst.
  destruct I1 as [->|I1], I2 as [->|I2]; auto.
  - exfalso. apply H1. rewrite E. apply in_map; auto.
  - exfalso. apply H1. rewrite <- E. apply in_map; auto.
Qed.
Lemma dep_inj cur s1 s2 j : dep_id g cur s1 = Some j -> dep_id g cur s2 = Some j -> s1 = s2.
Proof.
  unfold dep_id. destruct (kind_of g cur) as [[d|d z|c ins o|c ins o]|] eqn:K;
    try (apply code_dep_inj; eapply (proj2 (wf_out _ W _ _ _ K eq_refl)));
    intros H1 H2; apply index_Some in H1; apply index_Some in H2;
    destruct H1 as (a & Ha & Ea), H2 as (b & Hb & Eb); rewrite Ha in Hb; injection Hb as <-;
    apply Nat.eqb_eq in Ea; apply Nat.eqb_eq in Eb; congruence.
Qed.

(* ---------- one search ---------- *)
(** [anchor x s]: following the only outgoing edge from [x] as long as there is
    exactly one leads to [s] *)
Inductive anchor : nat -> nat -> Prop :=
| A_here x : outdeg g x <> 1 -> anchor x x
| A_next x y s : outdeg g x = 1 -> edge g x y -> anchor y s -> anchor x s.
Inductive path : nat -> nat -> Prop :=
| P_one x y : edge g x y -> path x y
| P_cons x y z : edge g x y -> path y z -> path x z.
Hypothesis AC : acyclic g.
Lemma path_acyclic x y : path x y -> x <> y.
Proof.
  destruct AC as [r Hr]. intros P. assert (r x < r y); [|congruence || (intros ->; lia)].
  induction P as [x y E|x y z E P IH]; [apply Hr; auto|]. apply Hr in E. lia.
Qed.
Lemma anchor_path p x s : edge g p x -> anchor x s -> path p s.
Proof.
  intros E A. revert p E. induction A as [x H|x y s H E' A IH]; intros p E; [apply P_one; auto|].
  eapply P_cons; [exact E|apply IH; auto].
Qed.
Lemma anchor_end x s : anchor x s -> outdeg g s <> 1.
Proof. induction 1; auto. Qed.
Lemma anchor_det x s t : anchor x s -> anchor x t -> s = t.
Proof.
  intros A. revert t. induction A as [x H|x y s H E A IH]; intros t B; inversion B; subst; auto; try contradiction.
  apply IH. assert (y = y0) as -> by (eapply out_one; eauto). auto.
Qed.

Definition pot (v : list nat) : nat := fold_right (fun x n => (if mem x v then 0 else List.length (preds g x)) + n) 0 (ids g).
Lemma pot_cons_gen x v l : NoDup l -> ~ In x v ->
  fold_right (fun y n => (if mem y v then 0 else List.length (preds g y)) + n) 0 l =
  fold_right (fun y n => (if mem y (x :: v) then 0 else List.length (preds g y)) + n) 0 l +
  (if mem x l then List.length (preds g x) else 0).
Proof.
  intros N Hv. induction l as [|a l IH]; [reflexivity|]. inversion N; subst. specialize (IH H2).
  cbn [fold_right]. rewrite IH. clear IH.
  destruct (Nat.eq_dec a x) as [->|Hne].
  - replace (mem x v) with false by (symmetry; apply mem_false; auto).
    replace (mem x (x :: v)) with true by (symmetry; apply mem_In; simpl; auto).
    replace (mem x l) with false by (symmetry; apply mem_false; auto).
    replace (mem x (x :: l)) with true by (symmetry; apply mem_In; simpl; auto). lia.
  - replace (mem a (x :: v)) with (mem a v).
    2:{ unfold mem. simpl. destruct (Nat.eqb_spec a x); [congruence|reflexivity]. }
    replace (mem x (a :: l)) with (mem x l).
    2:{ unfold mem. simpl. destruct (Nat.eqb_spec x a); [congruence|reflexivity]. }
    lia.
Qed.
Lemma pot_cons x v : In x (ids g) -> ~ In x v -> pot v = pot (x :: v) + List.length (preds g x).
Proof.
  intros Hx Hv. unfold pot. rewrite (pot_cons_gen x v _ (wf_ids _ W) Hv).
  replace (mem x (ids g)) with true by (symmetry; apply mem_In; auto). reflexivity.
Qed.
Lemma indeg_sum l es : NoDup l ->
  fold_right (fun x n => List.length (filter (fun e => Nat.eqb (m_dst e) x) es) + n) 0 l <= List.length es.
Proof.
  intros N. induction es as [|e es IH].
  - simpl. clear. induction l; simpl; auto.
  - simpl List.length. assert (E : forall l, NoDup l ->
      fold_right (fun x n => List.length (filter (fun e => Nat.eqb (m_dst e) x) (e :: es)) + n) 0 l =
      fold_right (fun x n => List.length (filter (fun e => Nat.eqb (m_dst e) x) es) + n) 0 l + (if mem (m_dst e) l then 1 else 0)).
    { clear. intros l N. induction l as [|a l IH]; [reflexivity|]. inversion N; subst. cbn [fold_right].
      rewrite (IH H2). simpl filter. destruct (Nat.eqb_spec (m_dst e) a) as [->|Hne].
      - replace (mem a (a :: l)) with true by (symmetry; apply mem_In; simpl; auto).
        replace (mem a l) with false by (symmetry; apply mem_false; auto). simpl. lia.
      - replace (mem (m_dst e) (a :: l)) with (mem (m_dst e) l). 2:{ unfold mem; simpl; destruct (Nat.eqb_spec (m_dst e) a); [congruence|reflexivity]. }
        lia. }
    rewrite E by auto. destruct (mem (m_dst e) l); lia.
Qed.
Lemma preds_indeg x : List.length (preds g x) <= indeg g x.
Proof.
  unfold indeg. rewrite <- (map_length m_src (in_edges g x)). apply NoDup_incl_length; [apply preds_NoDup|].
  intros p Hp. apply preds_In in Hp. destruct Hp as (e & He & <- & Hd). apply in_map, in_edges_In; auto.
Qed.
Lemma pot_le v : pot v <= List.length (g_edges g).
Proof.
  eapply Nat.le_trans; [|apply (indeg_sum (ids g) (g_edges g) (wf_ids _ W))].
  unfold pot. induction (ids g) as [|a l IH]; simpl; auto.
  pose proof (preds_indeg a). unfold indeg, in_edges in H. destruct (mem a v); lia.
Qed.

Section Search.
Variables (start : nat) (q0 v0 S0 : list nat) (b0 : list ((nat * nat) * nat)).
Record inv (stack : list (nat * nat)) (q v l : list nat) (d : list (nat * nat)) (b : list ((nat * nat) * nat)) : Prop := {
  i_v : v = l ++ v0;
  i_q : q = q0 ++ rev (map fst d);
  i_b : b = map (fun x => (x, start)) d ++ b0;
  i_stk : forall p x, In (p, x) stack -> In x l /\ edge g p x;
  i_nds : NoDup stack;
  i_ndv : NoDup v;
  i_ids : incl v (ids g);
  i_start : In start l;
  i_anchor : forall x, In x l -> anchor x start;
  i_put : forall p, In p v -> p = start \/ In p S0 \/ exists x, In x v /\ edge g p x /\ ~ In (p, x) stack;
  i_dep : forall p j s, In ((p, j), s) b -> exists x, In x v /\ dep_id g p x = Some j /\ ~ In (p, x) stack;
  i_d : forall p j, In (p, j) d -> exists x, In x l /\ edge g p x /\ dep_id g p x = Some j /\ multi p;
  i_pred : forall p x, In x l -> edge g p x ->
    In (p, x) stack \/ (multi p /\ exists j, dep_id g p x = Some j /\ In (p, j) d) \/ before l p x }.
Hypothesis starts_ok : forall s, s = start \/ In s S0 -> outdeg g s <> 1.

Lemma chunk_ok fuel : forall stack q v l d b, inv stack q v l d b -> List.length stack + pot v <= fuel ->
  exists q' v' l' d' b', chunk g fuel start stack q v l d b = Ok (q', v', l', d', b') /\ inv [] q' v' l' d' b' /\
    List.length q' + pot v' <= List.length q + List.length stack + pot v.
Proof.
  induction fuel as [|fuel IH]; intros stack q v l d b IV Hf.
  - destruct stack as [|[c s] stk]; [|simpl in Hf; lia]. exists q, v, l, d, b. split; [reflexivity|split; [exact IV|simpl; lia]].
  - destruct stack as [|[cur succ] stk]; [exists q, v, l, d, b; split; [reflexivity|split; [exact IV|simpl; lia]]|].
    cbn [chunk].
    destruct (i_stk _ _ _ _ _ _ IV cur succ (or_introl eq_refl)) as [Hsl He].
    assert (Hne : cur <> start).
    { apply path_acyclic. eapply anchor_path; [exact He|]. apply (i_anchor _ _ _ _ _ _ IV); auto. }
    replace (cur =? start) with false by (symmetry; apply Nat.eqb_neq; auto). cbn [negb andb].
    pose proof (i_nds _ _ _ _ _ _ IV) as NS. inversion NS as [|? ? Hnin NS']; subst.
    assert (Hsv : In succ v) by (rewrite (i_v _ _ _ _ _ _ IV); apply in_or_app; auto).
    destruct (Nat.ltb_spec 1 (outdeg g cur)) as [Hm|Hm].
    + destruct (dep_total _ _ He) as [j Hj]. rewrite Hj.
      destruct (memP (cur, j) (map fst b)) eqn:Hb.
      { exfalso. apply memP_In in Hb. apply in_map_iff in Hb. destruct Hb as ([k s] & Ek & Hb). simpl in Ek. subst k.
        destruct (i_dep _ _ _ _ _ _ IV _ _ _ Hb) as (x & Hx & Hjx & Hnx).
        apply Hnx. left. f_equal. eapply dep_inj; eauto. }
      edestruct (IH stk (q ++ [cur]) v l ((cur, j) :: d) (((cur, j), start) :: b)) as (q' & v' & l' & d' & b' & R & IV' & Hle).
      { constructor; try (apply IV); auto.
        - rewrite (i_q _ _ _ _ _ _ IV). simpl. rewrite app_assoc. reflexivity.
        - rewrite (i_b _ _ _ _ _ _ IV). reflexivity.
        - intros p x H. apply (i_stk _ _ _ _ _ _ IV). right; auto.
        - intros p Hp. destruct (i_put _ _ _ _ _ _ IV p Hp) as [?|[?|(x & ? & ? & Hn)]]; auto.
          right; right. exists x. repeat split; auto. intros H'. apply Hn. right; auto.
        - intros p j' s [E|H].
          + injection E as <- <- <-. exists succ. repeat split; auto.
          + destruct (i_dep _ _ _ _ _ _ IV _ _ _ H) as (x & ? & ? & Hn). exists x. repeat split; auto. intros H'. apply Hn. right; auto.
        - intros p j' [E|H]; [injection E as <- <-; exists succ; auto|apply (i_d _ _ _ _ _ _ IV); auto].
        - intros p x Hx Hpx. destruct (i_pred _ _ _ _ _ _ IV p x Hx Hpx) as [[E|H]|[(? & j' & ? & ?)|H]].
          + injection E as <- <-. right; left. split; auto. exists j. simpl; auto.
          + auto.
          + right; left. split; auto. exists j'. simpl; auto.
          + auto. }
      { simpl in Hf. lia. }
      exists q', v', l', d', b'. split; [exact R|]. split; [exact IV'|].
      rewrite app_length in Hle. simpl in *. lia.
    + assert (H1 : outdeg g cur = 1) by (pose proof (edge_out _ _ He); lia).
      destruct (mem cur v) eqn:Hv.
      { exfalso. apply mem_In in Hv. destruct (i_put _ _ _ _ _ _ IV cur Hv) as [E|[E|(x & Hx & Ex & Hn)]].
        - apply (starts_ok cur); auto.
        - apply (starts_ok cur); auto.
        - apply Hn. left. f_equal. eapply out_one; eauto. }
      apply mem_false in Hv.
      destruct (edge_ids _ _ He) as [Hcid _].
      assert (ND : NoDup (rev (map (fun p => (p, cur)) (preds g cur)))).
      { apply NoDup_rev. apply FinFun.Injective_map_NoDup; [intros a a' E; congruence|apply preds_NoDup]. }
      assert (HP : forall p x, In (p, x) (rev (map (fun p => (p, cur)) (preds g cur))) <-> x = cur /\ edge g p cur).
      { intros p x. rewrite <- in_rev, in_map_iff. rewrite <- preds_In. split.
        - intros (p' & E & H). injection E as -> ->. auto.
        - intros [-> H]. exists p. auto. }
      edestruct (IH (rev (map (fun p => (p, cur)) (preds g cur)) ++ stk) q (cur :: v) (cur :: l) d b)
        as (q' & v' & l' & d' & b' & R & IV' & Hle).
      { constructor; try (apply IV); auto.
        - rewrite (i_v _ _ _ _ _ _ IV). reflexivity.
        - intros p x H. apply in_app_or in H. destruct H as [H|H].
          + apply HP in H. destruct H as [-> H]. simpl; auto.
          + destruct (i_stk _ _ _ _ _ _ IV p x (or_intror H)). simpl; auto.
        - apply NoDup_app_iff. repeat split; auto. intros [p x] H H'. apply HP in H. destruct H as [-> H].
          destruct (i_stk _ _ _ _ _ _ IV p cur (or_intror H')) as [Hc _]. apply Hv. rewrite (i_v _ _ _ _ _ _ IV). apply in_or_app; auto.
        - constructor; auto. apply IV.
        - intros x [<-|H]; auto. apply (i_ids _ _ _ _ _ _ IV); auto.
        - right. apply IV.
        - intros x [<-|H]; [|apply IV; auto]. eapply A_next; [exact H1|exact He|]. apply IV; auto.
        - intros p [<-|Hp].
          + right; right. exists succ. repeat split; [right; auto|auto|].
            intros H. apply in_app_or in H. destruct H as [H|H]; [|contradiction].
            apply HP in H. destruct H as [-> H]. contradiction.
          + destruct (i_put _ _ _ _ _ _ IV p Hp) as [?|[?|(x & Hx & Ex & Hn)]]; auto.
            right; right. exists x. repeat split; [right; auto|auto|].
            intros H. apply in_app_or in H. destruct H as [H|H]; [|apply Hn; right; auto].
            apply HP in H. destruct H as [-> _]. contradiction.
        - intros p j s H. destruct (i_dep _ _ _ _ _ _ IV _ _ _ H) as (x & Hx & Ex & Hn).
          exists x. repeat split; [right; auto|auto|].
          intros H'. apply in_app_or in H'. destruct H' as [H'|H']; [|apply Hn; right; auto].
          apply HP in H'. destruct H' as [-> _]. contradiction.
        - intros p j H. destruct (i_d _ _ _ _ _ _ IV _ _ H) as (x & Hx & R). exists x. split; [right; auto|auto].
        - intros p x [<-|Hx] Hpx.
          + left. apply in_or_app. left. apply HP. auto.
          + destruct (i_pred _ _ _ _ _ _ IV p x Hx Hpx) as [[E|H]|[H|H]].
            * injection E as <- <-. right; right. apply before_hd; auto.
            * left. apply in_or_app; auto.
            * auto.
            * right; right. apply before_cons; auto. }
      { rewrite app_length, rev_length, map_length. simpl in Hf. rewrite (pot_cons cur v Hcid Hv) in Hf. lia. }
      exists q', v', l', d', b'. split; [exact R|]. split; [exact IV'|].
      rewrite app_length, rev_length, map_length in Hle. simpl. rewrite (pot_cons cur v Hcid Hv). lia.
Qed.
End Search.

(* ---------- all searches of a component ---------- *)
Definition starts (s : ph1) : list nat := map fst (lists s).
Record ginv (sk C : list nat) (s : ph1) : Prop := {
  g_keys : map fst (deps s) = starts s;
  g_vis : vis s = List.concat (map snd (lists s));
  g_ndv : NoDup (vis s);
  g_ids : incl (vis s) (ids g);
  g_ndk : NoDup (starts s);
  g_queue : forall x, In x (queue s) -> outdeg g x <> 1 /\ In x (ids g) /\ In x C;
  g_lists : forall k l, In (k, l) (lists s) -> In k C /\ In k l /\ outdeg g k <> 1 /\ (forall x, In x l -> anchor x k);
  g_put : forall p, In p (vis s) -> In p (starts s) \/ exists x, In x (vis s) /\ edge g p x;
  g_bdep : forall p j k, In ((p, j), k) (bdeps s) -> In k (starts s) /\ exists x, In x (vis s) /\ anchor x k /\ edge g p x /\ dep_id g p x = Some j;
  g_deps : forall k d, In (k, d) (deps s) -> forall p j, In (p, j) d ->
     (In p (queue s) \/ In p (starts s)) /\ multi p /\ exists x, anchor x k /\ edge g p x /\ dep_id g p x = Some j;
  g_pred : forall k l, In (k, l) (lists s) -> forall p x, In x l -> edge g p x ->
     (multi p /\ exists d j, In (k, d) (deps s) /\ In (p, j) d) \/ before l p x;
  g_sk : forall x, In x sk -> In x (queue s) \/ In x (starts s) }.

Lemma anchor_in C : (forall x y, edge g x y -> (In x C <-> In y C)) -> forall x k, anchor x k -> In k C -> In x C.
Proof. intros HC x k A. induction A as [|x y s H E A IH]; auto. intros Hs. apply (HC _ _ E). auto. Qed.
Lemma starts_vis sk C s x : ginv sk C s -> In x (vis s) -> outdeg g x <> 1 -> In x (starts s).
Proof.
  intros G Hx Ho. rewrite (g_vis _ _ _ G) in Hx. apply in_concat in Hx. destruct Hx as (l & Hl & Hx).
  apply in_map_iff in Hl. destruct Hl as ([k l'] & E & Hl). simpl in E. subst l'.
  destruct (g_lists _ _ _ G _ _ Hl) as (_ & _ & _ & HA). specialize (HA x Hx).
  inversion HA; subst; [|contradiction]. unfold starts. apply (in_map fst) in Hl. exact Hl.
Qed.
Lemma vis_starts sk C s k : ginv sk C s -> In k (starts s) -> In k (vis s).
Proof.
  intros G H. unfold starts in H. apply in_map_iff in H. destruct H as ([k' l] & E & Hl). simpl in E. subst k'.
  rewrite (g_vis _ _ _ G). apply in_concat. exists l. split; [apply (in_map snd) in Hl; exact Hl|]. apply (g_lists _ _ _ G _ _ Hl).
Qed.

Lemma searches_ok sk C cfuel : (forall x y, edge g x y -> (In x C <-> In y C)) -> S (List.length (g_edges g)) <= cfuel ->
  forall fuel s, ginv sk C s -> List.length (queue s) + pot (vis s) <= fuel ->
  exists s', searches g cfuel fuel s = Ok s' /\ ginv sk C s' /\ queue s' = [].
Proof.
  intros HC Hcf. induction fuel as [|fuel IH]; intros s G Hf.
  - destruct s as [q v li de bd]. simpl in *. destruct q; [|simpl in Hf; lia]. exists (Ph1 [] v li de bd). auto.
  - destruct s as [q v li de bd]. destruct q as [|x q]; [exists (Ph1 [] v li de bd); auto|].
    cbn [searches queue vis lists deps bdeps] in *.
    destruct (g_queue _ _ _ G x (or_introl eq_refl)) as (Hxo & Hxi & HxC).
    destruct (mem x v) eqn:Hm.
    + apply IH; [|simpl in *; lia]. apply mem_In in Hm.
      pose proof (starts_vis _ _ _ _ G Hm Hxo) as Hxs.
      constructor; simpl; try (apply G).
      * intros y Hy. apply (g_queue _ _ _ G). right; auto.
      * intros k d Hk p j Hp. destruct (g_deps _ _ _ G k d Hk p j Hp) as ([[<-|H]|H] & R); split; auto.
      * intros y Hy. destruct (g_sk _ _ _ G y Hy) as [[<-|H]|H]; auto.
    + apply mem_false in Hm.
      destruct cfuel as [|cfuel]; [lia|].
      cbn [chunk]. rewrite Nat.eqb_refl. cbn [negb andb].
      replace (mem x v) with false by (symmetry; apply mem_false; auto).
      assert (HP : forall p y, In (p, y) (rev (map (fun p => (p, x)) (preds g x)) ++ []) <-> y = x /\ edge g p x).
      { intros p y. rewrite app_nil_r, <- in_rev, in_map_iff, <- preds_In. split.
        - intros (p' & E & H). injection E as -> ->. auto.
        - intros [-> H]. exists p. auto. }
      pose proof (pot_cons x v Hxi Hm) as Hpot.
      pose proof (pot_le v) as Hple.
      destruct (chunk_ok x q v (starts (Ph1 (x :: q) v li de bd)) bd) with (fuel := cfuel)
        (stack := rev (map (fun p => (p, x)) (preds g x)) ++ []) (q := q) (v := x :: v) (l := [x]) (d := @nil (nat * nat)) (b := bd)
        as (q' & v' & l' & d' & b' & R & IV & Hle).
      { intros k [->|Hk]; [exact Hxo|]. unfold starts in Hk. apply in_map_iff in Hk. destruct Hk as ([k' l] & <- & Hl).
        apply (g_lists _ _ _ G _ _ Hl). }
      { constructor; simpl; auto.
        - rewrite app_nil_r. reflexivity.
        - intros p y H. apply HP in H. destruct H as [-> H]. auto.
        - rewrite app_nil_r. apply NoDup_rev. apply FinFun.Injective_map_NoDup; [intros a a' E; congruence|apply preds_NoDup].
        - constructor; auto. apply (g_ndv _ _ _ G).
        - intros y [<-|H]; auto. apply (g_ids _ _ _ G); auto.
        - intros y [<-|[]]. apply A_here; auto.
        - intros p [<-|Hp]; auto. destruct (g_put _ _ _ G p Hp) as [H|(y & Hy & Ey)]; auto.
          right; right. exists y. repeat split; auto. intros H. apply HP in H. destruct H as [-> _]. contradiction.
        - intros p j k H. destruct (g_bdep _ _ _ G _ _ _ H) as (_ & y & Hy & _ & _ & Ey). exists y. repeat split; auto.
          intros H'. apply HP in H'. destruct H' as [-> _]. contradiction.
        - intros p j [].
        - intros p y [<-|[]] Hpy. left. apply HP. auto. }
      { rewrite app_nil_r, rev_length, map_length. lia. }
      rewrite R. clear R.
      rewrite app_nil_r, rev_length, map_length in Hle.
      apply IH; [|simpl in *; lia].
      pose proof (i_v _ _ _ _ _ _ _ _ _ _ _ IV) as Ev. pose proof (i_q _ _ _ _ _ _ _ _ _ _ _ IV) as Eq.
      pose proof (i_b _ _ _ _ _ _ _ _ _ _ _ IV) as Eb. pose proof (i_start _ _ _ _ _ _ _ _ _ _ _ IV) as Hst.
      pose proof (i_d _ _ _ _ _ _ _ _ _ _ _ IV) as Hd. pose proof (i_anchor _ _ _ _ _ _ _ _ _ _ _ IV) as Han.
      assert (HlC : forall y, In y l' -> In y C) by (intros y Hy; eapply anchor_in; eauto).
      constructor; simpl; auto.
      * unfold starts; simpl. pose proof (g_keys _ _ _ G) as E. unfold starts in E. simpl in E. rewrite E. reflexivity.
      * rewrite Ev. pose proof (g_vis _ _ _ G) as E. simpl in E. congruence.
      * apply IV.
      * apply IV.
      * unfold starts; simpl. constructor; [|apply (g_ndk _ _ _ G)].
        intros H. apply Hm. apply (vis_starts _ _ _ _ G H).
      * intros y Hy. rewrite Eq in Hy. apply in_app_or in Hy. destruct Hy as [Hy|Hy]; [apply (g_queue _ _ _ G); right; auto|].
        apply in_rev in Hy. apply in_map_iff in Hy. destruct Hy as ([p j] & <- & Hp). simpl.
        destruct (Hd p j Hp) as (z & Hz & Ez & _ & Hmu). unfold multi in Hmu. destruct (edge_ids _ _ Ez).
        repeat split; auto; [lia|]. apply (HC _ _ Ez). auto.
      * intros k l [E|H]; [injection E as <- <-; auto|apply (g_lists _ _ _ G); auto].
      * intros p Hp. destruct (i_put _ _ _ _ _ _ _ _ _ _ _ IV p Hp) as [->|[H|(y & Hy & Ey & _)]];
          [left; left; auto|left; right; auto|right; eauto].
      * intros p j k H. rewrite Eb in H. apply in_app_or in H. destruct H as [H|H].
        -- apply in_map_iff in H. destruct H as ([p' j'] & E & H). injection E as -> -> <-. split; [left; auto|].
           destruct (Hd p j H) as (z & Hz & Ez & Ej & _). exists z. repeat split; auto. rewrite Ev. apply in_or_app; auto.
        -- destruct (g_bdep _ _ _ G _ _ _ H) as (Hk & y & Hy & R). split; [right; auto|]. exists y. split; auto.
           rewrite Ev. apply in_or_app; auto.
      * intros k d [E|H] p j Hp.
        -- injection E as <- <-. destruct (Hd p j Hp) as (z & Hz & Ez & Ej & Hmu). repeat split; auto.
           ++ left. rewrite Eq. apply in_or_app. right. apply -> in_rev. apply (in_map fst) in Hp. exact Hp.
           ++ exists z. auto.
        -- destruct (g_deps _ _ _ G k d H p j Hp) as ([[<-|Hq]|Hq] & R).
           ++ split; [right; left; auto|auto].
           ++ split; [left; rewrite Eq; apply in_or_app; auto|auto].
           ++ split; [right; right; auto|auto].
      * intros k l [E|H] p y Hy Ey.
        -- injection E as <- <-. destruct (i_pred _ _ _ _ _ _ _ _ _ _ _ IV p y Hy Ey) as [[]|[(Hmu & j & Hj & Hp)|Hb]]; [|auto].
           left. split; auto. exists d', j. auto.
        -- destruct (g_pred _ _ _ G k l H p y Hy Ey) as [(Hmu & d & j & Hd1 & Hd2)|Hb]; [|auto].
           left. split; auto. exists d, j. auto.
      * intros y Hy. destruct (g_sk _ _ _ G y Hy) as [[<-|H]|H]; [right; left; auto| |right; right; auto].
        left. rewrite Eq. apply in_or_app; auto.
Qed.

(* ---------- stitching ---------- *)
Lemma blocked_Some bd v d n : blocked bd v d = Some n ->
  ~ In n v /\ exists p j, In (p, j) d /\ (n = p \/ exists i, i < j /\ In ((p, i), n) bd).
Proof.
  induction d as [|[p j] d IH]; simpl; intros H; [discriminate|].
  destruct (mem p v) eqn:E; simpl in H.
  - destruct (find _ _) as [s|] eqn:F.
    + injection H as <-. apply find_some in F. destruct F as [F1 F2].
      apply negb_true_iff, mem_false in F2. split; auto. exists p, j. split; [auto|]. right.
      apply in_flat_map in F1. destruct F1 as (i & Hi & F1). apply in_seq in Hi. exists i. split; [lia|].
      destruct (find _ bd) as [[[p' i'] k]|] eqn:F; [|contradiction]. destruct F1 as [<-|[]].
      apply find_some in F. simpl in F. destruct F as [F1 F]. apply andb_true_iff in F. destruct F as [A B].
      apply Nat.eqb_eq in A. apply Nat.eqb_eq in B. subst. exact F1.
    + destruct (IH H) as (Hn & p' & j' & Hp & R). split; auto. exists p', j'. auto.
  - injection H as <-. apply mem_false in E. split; auto. exists p, j. auto.
Qed.
Lemma blocked_None bd v d : blocked bd v d = None -> forall p j, In (p, j) d -> In p v.
Proof.
  induction d as [|[p j] d IH]; simpl; intros H p' j' Hp; [contradiction|].
  destruct (mem p v) eqn:E; simpl in H; [|discriminate]. destruct (find _ _); [discriminate|].
  destruct Hp as [Ep|Hp]; [injection Ep as <- <-; apply mem_In; auto|eapply IH; eauto].
Qed.

(** ranks that rise along every dependency between starts and do not fall along
    the order preferred among the consumers of one node *)
Definition compat (rho : nat -> nat) : Prop :=
  (forall p x s, multi p -> edge g p x -> anchor x s -> rho p < rho s) /\
  (forall p x x' s s' j j', multi p -> edge g p x -> edge g p x' -> anchor x s -> anchor x' s' ->
     dep_id g p x = Some j -> dep_id g p x' = Some j' -> j' < j -> rho s' <= rho s).

Section Stitch.
Variables (sk C : list nat) (s : ph1).
Hypothesis G : ginv sk C s.
Hypothesis Q : queue s = [].
Definition dp (k p : nat) : Prop := exists d j, In (k, d) (deps s) /\ In (p, j) d.
Definition outs (E : list nat) : list nat := List.concat (map (fun k => match assoc k (lists s) with Some l => l | None => [] end) E).
Record inv2 (stack v E : list nat) : Prop := {
  s_nd : NoDup (stack ++ E);
  s_in : incl (stack ++ E) (starts s);
  s_v1 : forall x, In x v -> In x (stack ++ E);
  s_v2 : forall x, In x E -> In x v;
  s_v3 : forall x, In x (tl stack) -> In x v;
  s_dep : forall x p, In x E -> dp x p -> In p v;
  s_ord : forall rho, compat rho -> (forall a b, before stack a b -> rho a <= rho b) /\ (forall x p, In x E -> dp x p -> before E p x) }.
Lemma dp_rank rho k p : compat rho -> dp k p -> rho p < rho k.
Proof.
  intros [H _] (d & j & Hd & Hp). destruct (g_deps _ _ _ G k d Hd p j Hp) as (_ & Hm & x & Ax & Ex & _). eapply H; eauto.
Qed.
Lemma dp_path k p : dp k p -> path p k.
Proof. intros (d & j & Hd & Hp). destruct (g_deps _ _ _ G k d Hd p j Hp) as (_ & Hm & x & Ax & Ex & _). eapply anchor_path; eauto. Qed.
Lemma dp_start k p : dp k p -> In p (starts s).
Proof. intros (d & j & Hd & Hp). destruct (g_deps _ _ _ G k d Hd p j Hp) as ([H|H] & _); [rewrite Q in H; contradiction|auto]. Qed.
Lemma outs_snoc E k l : assoc k (lists s) = Some l -> outs (E ++ [k]) = outs E ++ l.
Proof. intros H. unfold outs. rewrite map_app, concat_app. simpl. rewrite H, app_nil_r. reflexivity. Qed.

Lemma stitch_ok fuel : forall stack v E, inv2 stack v E ->
  2 * List.length (starts s) < fuel + 2 * List.length E + List.length stack ->
  exists v' E', stitch fuel s stack v (outs E) = Ok (v', outs E') /\ inv2 [] v' E' /\ incl (stack ++ E) E'.
Proof.
  induction fuel as [|fuel IH]; intros stack v E IV Hf.
  - pose proof (NoDup_incl_length (s_nd _ _ _ IV) (s_in _ _ _ IV)) as HL. rewrite app_length in HL.
    destruct stack; [|simpl in *; lia]. exists v, E. split; [reflexivity|split; [exact IV|intros x Hx; exact Hx]].
  - destruct stack as [|cur stk]; [exists v, E; split; [reflexivity|split; [exact IV|intros x Hx; exact Hx]]|].
    cbn [stitch].
    assert (Hcs : In cur (starts s)) by (apply (s_in _ _ _ IV); simpl; auto).
    destruct (assoc_total cur (deps s)) as [d Ed]; [rewrite (g_keys _ _ _ G); auto|].
    destruct (assoc_total cur (lists s)) as [l El]; [auto|].
    rewrite Ed, El. apply assoc_In in Ed.
    pose proof (s_nd _ _ _ IV) as ND. simpl in ND.
    destruct (blocked (bdeps s) (cur :: v) d) as [n|] eqn:B.
    + apply blocked_Some in B. destruct B as (Hn & p & j & Hp & Hnp).
      destruct (g_deps _ _ _ G cur d Ed p j Hp) as (_ & Hm & x & Ax & Ex & Jx).
      assert (Hns : In n (starts s)).
      { destruct Hnp as [->|(i & Hi & Hb)]; [apply (dp_start cur); exists d, j; auto|apply (g_bdep _ _ _ G _ _ _ Hb)]. }
      assert (Hnn : ~ In n (cur :: stk ++ E)).
      { intros [->|H]; [apply Hn; left; auto|]. apply in_app_or in H. apply Hn. right. destruct H as [H|H].
        - apply (s_v3 _ _ _ IV). auto.
        - apply (s_v2 _ _ _ IV). auto. }
      assert (Hr : forall rho, compat rho -> rho n <= rho cur).
      { intros rho CR. destruct Hnp as [->|(i & Hi & Hb)].
        - apply Nat.lt_le_incl. apply dp_rank; auto. exists d, j; auto.
        - destruct (g_bdep _ _ _ G _ _ _ Hb) as (_ & x' & _ & Ax' & Ex' & Jx'). eapply (proj2 CR p x x'); eauto. }
      edestruct (IH (n :: cur :: stk) (cur :: v) E) as (v' & E' & R & IV' & HI).
      { constructor; simpl.
        - constructor; auto.
        - intros y [<-|Hy]; auto. apply (s_in _ _ _ IV). auto.
        - intros y [<-|Hy]; auto. right. apply (s_v1 _ _ _ IV); auto.
        - intros y Hy. right. apply (s_v2 _ _ _ IV); auto.
        - intros y [<-|Hy]; auto. right. apply (s_v3 _ _ _ IV); auto.
        - intros y q Hy Hq. right. eapply (s_dep _ _ _ IV); eauto.
        - intros rho CR. destruct (s_ord _ _ _ IV rho CR) as [O1 O2]. split; auto.
          intros a b (l1 & l2 & l3 & E1). destruct l1 as [|h l1]; simpl in E1; injection E1 as E0 E1.
          + subst a. destruct l2 as [|h l2]; simpl in E1; injection E1 as E2 E3; [subst b; auto|].
            subst h. eapply Nat.le_trans; [apply Hr; auto|]. apply O1. exists [], l2, l3. simpl. congruence.
          + apply O1. exists l1, l2, l3. auto. }
      { simpl in *. lia. }
      exists v', E'. split; [exact R|]. split; [exact IV'|]. intros y Hy. apply HI. right. exact Hy.
    + assert (HD : forall p, dp cur p -> In p (cur :: v)).
      { intros p (d' & j & Hd & Hp). assert (d' = d) as ->.
        { pose proof (g_ndk _ _ _ G) as NK. rewrite <- (g_keys _ _ _ G) in NK.
          pose proof (assoc_NoDup _ _ _ NK Hd). pose proof (assoc_NoDup _ _ _ NK Ed). congruence. }
        eapply blocked_None; eauto. }
      rewrite <- (outs_snoc _ _ _ El).
      edestruct (IH stk (cur :: v) (E ++ [cur])) as (v' & E' & R & IV' & HI).
      { constructor; simpl.
        - rewrite app_assoc. apply (Permutation_NoDup (l := cur :: stk ++ E)); [apply Permutation_cons_append|exact ND].
        - intros y Hy. apply (s_in _ _ _ IV). rewrite app_assoc in Hy. apply in_app_or in Hy. simpl.
          destruct Hy as [Hy|[<-|[]]]; auto.
        - intros y [<-|Hy]; [apply in_or_app; right; apply in_or_app; simpl; auto|].
          destruct (s_v1 _ _ _ IV y Hy) as [<-|H]; [apply in_or_app; right; apply in_or_app; simpl; auto|].
          apply in_app_or in H. apply in_or_app. destruct H; auto. right. apply in_or_app; auto.
        - intros y Hy. apply in_app_or in Hy. destruct Hy as [Hy|[<-|[]]]; auto. right. apply (s_v2 _ _ _ IV); auto.
        - intros y Hy. right. apply (s_v3 _ _ _ IV). simpl. destruct stk; [contradiction|right; exact Hy].
        - intros y p Hy Hp. apply in_app_or in Hy. destruct Hy as [Hy|[<-|[]]]; [right; eapply (s_dep _ _ _ IV); eauto|exact (HD p Hp)].
        - intros rho CR. destruct (s_ord _ _ _ IV rho CR) as [O1 O2]. split.
          + intros a b Hb. apply O1. apply before_cons; auto.
          + intros y p Hy Hp. apply in_app_or in Hy. destruct Hy as [Hy|[<-|[]]]; [apply before_app_l; auto|].
            pose proof (path_acyclic _ _ (dp_path _ _ Hp)) as Hne.
            destruct (HD p Hp) as [E0|Hv]; [congruence|].
            destruct (s_v1 _ _ _ IV p Hv) as [E0|H]; [congruence|]. apply in_app_or in H. destruct H as [H|H].
            * exfalso. pose proof (dp_rank _ _ _ CR Hp). assert (rho cur <= rho p); [|lia].
              apply O1. apply before_hd; auto.
            * apply before_app; simpl; auto. }
      { rewrite app_length. simpl in *. lia. }
      exists v', E'. split; [exact R|]. split; [exact IV'|].
      intros y Hy. apply HI. destruct Hy as [<-|Hy]; [apply in_or_app; right; apply in_or_app; simpl; auto|].
      apply in_app_or in Hy. apply in_or_app. destruct Hy; auto. right. apply in_or_app; auto.
Qed.
Lemma stitches_ok fuel : 2 * List.length (starts s) < fuel -> forall sinks v E, incl sinks (starts s) -> inv2 [] v E ->
  exists v' E', stitches fuel s sinks v (outs E) = Ok (outs E') /\ inv2 [] v' E' /\ incl (sinks ++ E) E'.
Proof.
  intros Hf. induction sinks as [|x r IH]; intros v E HI IV.
  - exists v, E. split; [reflexivity|split; [exact IV|intros y Hy; exact Hy]].
  - cbn [stitches]. destruct (mem x v) eqn:Hm.
    + apply mem_In in Hm. destruct (IH v E) as (v' & E' & R & IV' & HE); auto.
      { intros y Hy. apply HI. right; auto. }
      exists v', E'. split; [exact R|split; [exact IV'|]]. intros y [<-|Hy]; [|apply HE; auto].
      apply HE. apply in_or_app. right. apply (s_v1 _ _ _ IV x Hm).
    + apply mem_false in Hm.
      destruct (stitch_ok fuel [x] v E) as (v' & E' & R & IV' & HE).
      { constructor; simpl.
        - constructor; [|apply (s_nd _ _ _ IV)]. intros H. apply Hm. apply (s_v2 _ _ _ IV); auto.
        - intros y [<-|Hy]; [apply HI; simpl; auto|apply (s_in _ _ _ IV); auto].
        - intros y Hy. right. apply (s_v1 _ _ _ IV y Hy).
        - apply (s_v2 _ _ _ IV).
        - intros y [].
        - apply (s_dep _ _ _ IV).
        - intros rho CR. destruct (s_ord _ _ _ IV rho CR) as [_ O2]. split; auto.
          intros a b (l1 & l2 & l3 & E1). destruct l1 as [|h [|]]; try discriminate. destruct l2; discriminate. }
      { simpl. lia. }
      rewrite R. destruct (IH v' E') as (v2 & E2 & R2 & IV2 & HE2); auto.
      { intros y Hy. apply HI. right; auto. }
      exists v2, E2. split; [exact R2|]. split; [exact IV2|].
      intros y [<-|Hy]; [apply HE2, in_or_app; right; apply HE; simpl; auto|].
      apply in_app_or in Hy. apply HE2, in_or_app. destruct Hy as [Hy|Hy]; auto. right. apply HE. simpl. auto.
Qed.
End Stitch.

(* ---------- one component ---------- *)
Lemma NoDup_concat_in {A} (L : list (list A)) l : NoDup (List.concat L) -> In l L -> NoDup l.
Proof.
  induction L as [|a L IH]; simpl; intros N H; [contradiction|]. apply NoDup_app_iff in N. destruct N as (N1 & N2 & _).
  destruct H as [->|H]; auto.
Qed.
Lemma NoDup_concat_map {A B} (f : A -> list B) L : NoDup L -> (forall k, In k L -> NoDup (f k)) ->
  (forall k k' x, In k L -> In k' L -> In x (f k) -> In x (f k') -> k = k') -> NoDup (List.concat (map f L)).
Proof.
  induction L as [|a L IH]; simpl; intros N H D; [constructor|]. inversion N; subst. apply NoDup_app_iff. repeat split.
  - apply H; auto.
  - apply IH; auto. intros k k' x Hk Hk'. apply D; auto.
  - intros x Hx Hc. apply in_concat in Hc. destruct Hc as (l & Hl & Hxl). apply in_map_iff in Hl. destruct Hl as (k & <- & Hk).
    assert (a = k) by (eapply D; eauto). subst. contradiction.
Qed.
Lemma before_concat {A B} (f : A -> list B) L a b x y : before L a b -> In x (f a) -> In y (f b) -> before (List.concat (map f L)) x y.
Proof.
  intros (l1 & l2 & l3 & ->) Hx Hy. rewrite map_app, concat_app. apply before_app_r. simpl. apply before_app; auto.
  rewrite map_app, concat_app. apply in_or_app. right. simpl. apply in_or_app. auto.
Qed.
Lemma before_concat_in {A B} (f : A -> list B) L a x y : In a L -> before (f a) x y -> before (List.concat (map f L)) x y.
Proof.
  intros H Hb. apply in_split in H. destruct H as (l1 & l2 & ->). rewrite map_app, concat_app. apply before_app_r. simpl. apply before_app_l. auto.
Qed.
Lemma has_sink C : C <> [] -> (forall x y, edge g x y -> (In x C <-> In y C)) -> filter (fun x => outdeg g x =? 0) C <> [].
Proof.
  intros Hne HC E. destruct AC as [r Hr].
  assert (H : forall x, In x C -> exists y, In y C /\ r x < r y).
  { intros x Hx. destruct (outdeg g x) eqn:O.
    - exfalso. assert (In x (filter (fun x => outdeg g x =? 0) C)) by (apply filter_In; rewrite O; auto). rewrite E in H. contradiction.
    - unfold outdeg in O. destruct (out_edges g x) as [|e l] eqn:Oe; [discriminate|].
      assert (He : In e (out_edges g x)) by (rewrite Oe; simpl; auto). apply out_edges_In in He. destruct He as [He <-].
      assert (Ed : edge g (m_src e) (m_dst e)) by (exists e; auto).
      exists (m_dst e). split; [apply (HC _ _ Ed); auto|apply Hr; auto]. }
  assert (U : forall n, exists x, In x C /\ n <= r x).
  { induction n as [|n (x & Hx & Hn)]; [destruct C as [|c C]; [congruence|exists c; simpl; split; auto; lia]|].
    destruct (H x Hx) as (y & Hy & Hl). exists y. split; auto. lia. }
  destruct (U (S (fold_right (fun x n => r x + n) 0 C))) as (x & Hx & Hn).
  assert (r x <= fold_right (fun x n => r x + n) 0 C); [|lia].
  clear -Hx. induction C as [|c C IH]; [contradiction|]. simpl. destruct Hx as [->|Hx]; [lia|]. specialize (IH Hx). lia.
Qed.

Lemma sort_comp_ok C : NoDup C -> incl C (ids g) -> C <> [] -> (forall x y, edge g x y -> (In x C <-> In y C)) ->
  exists l, sort_comp g C = Ok l /\ Permutation l C /\
    (forall rho, compat rho -> forall x y, edge g x y -> In y C -> before l x y).
Proof.
  intros NC IC Hne HC. unfold sort_comp.
  pose proof (has_sink C Hne HC) as Hs. set (sinks := filter (fun x => outdeg g x =? 0) C) in *.
  destruct sinks as [|x0 r0] eqn:Es; [congruence|]. rewrite <- Es in *. clear Hs.
  assert (HS : forall x, In x sinks <-> In x C /\ outdeg g x = 0) by (intros x; unfold sinks; rewrite filter_In, Nat.eqb_eq; tauto).
  assert (LN : List.length (ids g) = List.length (g_nodes g)) by apply map_length.
  assert (L1 : List.length sinks <= List.length (g_nodes g)).
  { rewrite <- LN. apply NoDup_incl_length; [apply NoDup_filter; auto|]. intros y Hy. apply IC, HS; auto. }
  destruct (searches_ok sinks C (fuel0 g) HC) with (fuel := fuel0 g) (s := Ph1 sinks [] [] [] []) as (s & R & G & Q).
  { unfold fuel0. lia. }
  { constructor; simpl; try solve [auto | constructor | intros; contradiction | intros ? ?; contradiction].
    intros y Hy. apply HS in Hy. destruct Hy as [Hy1 Hy2]. repeat split; auto. lia. }
  { simpl. pose proof (pot_le []). unfold fuel0. lia. }
  rewrite R.
  assert (L2 : 2 * List.length (starts s) < fuel0 g).
  { assert (List.length (starts s) <= List.length (ids g)); [|unfold fuel0; lia].
    apply NoDup_incl_length; [apply G|]. intros y Hy. apply (g_ids _ _ _ G). eapply vis_starts; eauto. }
  assert (Hss : incl (isort (sink_lt g) sinks) (starts s)).
  { intros y Hy. apply (Permutation_in _ (Permutation_sym (isort_perm _ _))) in Hy.
    destruct (g_sk _ _ _ G y Hy) as [H|H]; [rewrite Q in H; contradiction|auto]. }
  destruct (stitches_ok sinks C s G Q (fuel0 g) L2 (isort (sink_lt g) sinks) [] []) as (v & E & R2 & IV & HE); auto.
  { constructor; simpl; try solve [auto | constructor | intros; contradiction | intros ? ?; contradiction].
    intros rho CR. split; [|intros; contradiction]. intros a b (l1 & l2 & l3 & E1). destruct l1; discriminate. }
  change (outs s []) with (@nil nat) in R2. rewrite R2.
  assert (HEs : forall k, In k E -> In k (starts s)) by (intros k Hk; apply (s_in _ _ _ _ IV); auto).
  pose proof (g_ndk _ _ _ G) as NK.
  assert (FE : forall k, In k (starts s) -> exists l, assoc k (lists s) = Some l /\ In (k, l) (lists s)).
  { intros k Hk. destruct (assoc_total k (lists s) Hk) as [l Hl]. exists l. split; auto. apply assoc_In; auto. }
  set (f := fun k => match assoc k (lists s) with Some l => l | None => [] end).
  assert (FI : forall k l, In (k, l) (lists s) -> f k = l).
  { intros k l H. unfold f. rewrite (assoc_NoDup _ _ _ NK H). reflexivity. }
  assert (HA : forall k x, In k (starts s) -> In x (f k) -> anchor x k).
  { intros k x Hk Hx. destruct (FE k Hk) as (l & _ & Hl). rewrite (FI k l Hl) in Hx. apply (g_lists _ _ _ G _ _ Hl); auto. }
  assert (HK : forall k, In k (starts s) -> In k C /\ In k (f k)).
  { intros k Hk. destruct (FE k Hk) as (l & _ & Hl). rewrite (FI k l Hl). destruct (g_lists _ _ _ G _ _ Hl) as (? & ? & _). auto. }
  assert (EV : forall k, In k E <-> In k v).
  { intros k. split; [apply (s_v2 _ _ _ _ IV)|apply (s_v1 _ _ _ _ IV)]. }
  assert (COV : forall x, In x C -> exists k, In k E /\ In x (f k)).
  { destruct AC as [r Hr]. 
    assert (B : forall n x, In x C -> fold_right (fun x n => r x + n) 0 (ids g) < n + r x -> exists k, In k E /\ In x (f k)).
    { assert (BD : forall x, In x (ids g) -> r x <= fold_right (fun x n => r x + n) 0 (ids g)).
      { clear. induction (ids g) as [|c l IH]; intros x Hx; [contradiction|]. simpl. destruct Hx as [->|Hx]; [lia|]. specialize (IH x Hx). lia. }
      induction n as [|n IH]; intros x Hx Hb; [pose proof (BD x (IC x Hx)); lia|].
      destruct (outdeg g x) eqn:O.
      - exists x. assert (Hxs : In x sinks) by (apply HS; auto).
        assert (HxE : In x E) by (apply HE; apply in_or_app; left; apply (Permutation_in _ (isort_perm _ _)); auto).
        split; auto. apply HK. auto.
      - unfold outdeg in O. destruct (out_edges g x) as [|e l] eqn:Oe; [discriminate|].
        assert (He : In e (out_edges g x)) by (rewrite Oe; simpl; auto). apply out_edges_In in He. destruct He as [He Esrc].
        assert (Ed : edge g x (m_dst e)) by (exists e; auto).
        destruct (IH (m_dst e)) as (k & Hk & Hy); [apply (HC _ _ Ed); auto|apply Hr in Ed; lia|].
        destruct (FE k (HEs k Hk)) as (lk & _ & Hl). rewrite (FI k lk Hl) in Hy.
        destruct (g_pred _ _ _ G k lk Hl x (m_dst e) Hy Ed) as [(_ & d & j & Hd & Hj)|Hb'].
        + assert (HxE : In x E) by (apply EV; apply (s_dep _ _ _ _ IV k); auto; exists d, j; auto).
          exists x. split; auto. apply HK. auto.
        + exists k. split; auto. rewrite (FI k lk Hl). apply before_In in Hb'. tauto. }
    intros x Hx. apply (B (S (fold_right (fun x n => r x + n) 0 (ids g))) x Hx). lia. }
  exists (outs s E). split; [reflexivity|]. split.
  - apply NoDup_Permutation; auto.
    + apply NoDup_concat_map.
      * pose proof (s_nd _ _ _ _ IV) as N. exact N.
      * intros k Hk. destruct (FE k (HEs k Hk)) as (l & _ & Hl). fold (f k). rewrite (FI k l Hl).
        apply (NoDup_concat_in (map snd (lists s))); [rewrite <- (g_vis _ _ _ G); apply G|]. apply (in_map snd) in Hl. exact Hl.
      * intros k k' x Hk Hk' Hx Hx'. eapply anchor_det; eapply HA; eauto.
    + intros x. unfold outs. rewrite in_concat. split.
      * intros (l & Hl & Hx). apply in_map_iff in Hl. destruct Hl as (k & <- & Hk). fold (f k) in Hx.
        eapply anchor_in; [exact HC|apply (HA k); auto|apply HK; auto].
      * intros Hx. destruct (COV x Hx) as (k & Hk & Hxk). exists (f k). split; auto. apply in_map_iff. exists k. auto.
  - intros rho CR x y Ed Hy. destruct (COV y Hy) as (k & Hk & Hyk).
    destruct (FE k (HEs k Hk)) as (lk & _ & Hl). pose proof (FI k lk Hl) as Ef.
    assert (Hyl : In y lk) by (rewrite <- Ef; auto).
    destruct (g_pred _ _ _ G k lk Hl x y Hyl Ed) as [(_ & d & j & Hd & Hj)|Hb].
    + assert (Hdp : dp s k x) by (exists d, j; auto).
      apply (before_concat f E x k); auto.
      * apply (proj2 (s_ord _ _ _ _ IV rho CR)); auto.
      * apply HK. apply HEs. apply EV. apply (s_dep _ _ _ _ IV k); auto.
    + apply (before_concat_in f E k); auto. rewrite Ef. auto.
Qed.

(* ---------- weakly connected components ---------- *)
Definition closed (C : list nat) : Prop := forall x y, edge g x y -> (In x C <-> In y C).
Lemma grow_In s x : In x (grow g s) <-> In x (ids g) /\ (In x s \/ exists y, In y s /\ (edge g x y \/ edge g y x)).
Proof.
  unfold grow. rewrite filter_In, orb_true_iff, mem_In, existsb_exists. split.
  - intros [H [Hs|(e & He & H2)]]; split; auto. right. apply orb_true_iff in H2.
    destruct H2 as [H2|H2]; apply andb_true_iff in H2; destruct H2 as [A B]; apply Nat.eqb_eq in A; apply mem_In in B.
    + exists (m_dst e). split; auto. left. exists e. auto.
    + exists (m_src e). split; auto. right. exists e. auto.
  - intros [H [Hs|(y & Hy & [(e & He & E1 & E2)|(e & He & E1 & E2)])]]; split; auto; right; exists e; split; auto;
      apply orb_true_iff; subst; [left|right]; rewrite Nat.eqb_refl; apply mem_In; auto.
Qed.
Lemma closure_closed x : In x (ids g) -> closed (closure g x) /\ In x (closure g x) /\ incl (closure g x) (ids g).
Proof.
  intros Hx. unfold closure. set (K := fun n => Nat.iter n (grow g) [x]).
  assert (KI : forall n, incl (K n) (ids g)).
  { intros [|n] y Hy; [destruct Hy as [<-|[]]; auto|]. apply grow_In in Hy. tauto. }
  assert (KN : forall n, NoDup (K n)).
  { intros [|n]; [constructor; [auto|constructor]|]. apply NoDup_filter. apply (wf_ids _ W). }
  assert (KM : forall n, incl (K n) (K (S n))).
  { intros n y Hy. apply grow_In. split; [apply (KI n); auto|auto]. }
  assert (KD : forall n, (exists m, m <= n /\ incl (K (S m)) (K m)) \/ S n <= List.length (K n)).
  { induction n as [|n [(m & Hm & Hi)|IH]]; [right; simpl; lia|left; exists m; split; auto; lia|].
    destruct (le_lt_dec (List.length (K (S n))) (List.length (K n))) as [Hl|Hl].
    - left. exists n. split; [lia|]. apply NoDup_length_incl; auto.
    - right. lia. }
  assert (KX : forall n, In x (K n)) by (induction n as [|n IH]; [simpl; auto|apply KM; auto]).
  fold (K (List.length (ids g))). split; [|split; [apply KX|apply KI]].
  destruct (KD (List.length (ids g))) as [(m & Hm & Hi)|Hl].
  2:{ pose proof (NoDup_incl_length (KN (List.length (ids g))) (KI (List.length (ids g)))). lia. }
  assert (UP : forall k, incl (K (k + m)) (K m)).
  { induction k as [|k IHk]; [intros y Hy; exact Hy|]. intros y Hy. apply grow_In in Hy. destruct Hy as [Hy1 Hy2].
    apply Hi. apply grow_In. split; auto. destruct Hy2 as [Hy|(z & Hz & Ez)]; [left; apply IHk; auto|right; exists z; split; auto; apply IHk; auto]. }
  assert (DN : forall k, incl (K m) (K (k + m))) by (induction k as [|k IHk]; intros y Hy; [exact Hy|apply KM, IHk; auto]).
  replace (List.length (ids g)) with ((List.length (ids g) - m) + m) by lia. set (k := List.length (ids g) - m).
  intros a b Eab. destruct (edge_ids _ _ Eab) as [Ia Ib]. split; intros H; apply UP in H; apply DN; apply Hi; apply grow_In; split; auto; right;
    [exists a|exists b]; split; auto.
Qed.
Lemma filter_perm {A} (p : A -> bool) l : Permutation (filter p l ++ filter (fun x => negb (p x)) l) l.
Proof.
  induction l as [|a l IH]; simpl; [constructor|]. destruct (p a); simpl; [constructor; auto|].
  eapply perm_trans; [apply Permutation_sym, Permutation_middle|]. constructor; auto.
Qed.
Lemma comps_ok fuel : forall rest, NoDup rest -> incl rest (ids g) -> closed rest -> List.length rest <= fuel ->
  Permutation (List.concat (comps g fuel rest)) rest /\
  forall c, In c (comps g fuel rest) -> NoDup c /\ incl c (ids g) /\ c <> [] /\ closed c.
Proof.
  induction fuel as [|fuel IH]; intros rest N I C L.
  - destruct rest; [|simpl in L; lia]. simpl. split; [constructor|contradiction].
  - destruct rest as [|x r]; [simpl; split; [constructor|contradiction]|].
    destruct (closure_closed x (I x (or_introl eq_refl))) as (HC & Hx & HI).
    cbn [comps]. set (rest := x :: r) in *. set (cl := closure g x) in *.
    set (c := filter (fun y => mem y cl) rest). set (r' := filter (fun y => negb (mem y cl)) rest).
    assert (Hc : forall y, In y c <-> In y rest /\ In y cl) by (intros y; unfold c; rewrite filter_In, mem_In; tauto).
    assert (Hr : forall y, In y r' <-> In y rest /\ ~ In y cl) by (intros y; unfold r'; rewrite filter_In, negb_true_iff, mem_false; tauto).
    assert (P : Permutation (c ++ r') rest) by apply filter_perm.
    assert (Hxc : In x c) by (apply Hc; split; [left; reflexivity|exact Hx]).
    destruct (IH r') as [P' HC'].
    + apply NoDup_filter; auto.
    + intros y Hy. apply Hr in Hy. apply I; tauto.
    + intros a b Eab. rewrite !Hr. rewrite (C a b Eab), (HC a b Eab). tauto.
    + apply Permutation_length in P. rewrite app_length in P. destruct c; [contradiction|]. simpl in *. lia.
    + split.
      * simpl. eapply perm_trans; [apply Permutation_app_head; exact P'|exact P].
      * intros c' [<-|H]; [|apply HC'; auto]. split; [apply NoDup_filter; auto|]. split; [intros y Hy; apply Hc in Hy; apply I; tauto|].
        split; [intros E; rewrite E in Hxc; contradiction|].
        intros a b Eab. rewrite !Hc. rewrite (C a b Eab), (HC a b Eab). tauto.
Qed.

Lemma mapR_ok {A B} (f : A -> res B) (P : A -> B -> Prop) l : (forall x, In x l -> exists y, f x = Ok y /\ P x y) ->
  exists ys, mapR f l = Ok ys /\ Forall2 P l ys.
Proof.
  induction l as [|x l IH]; simpl; intros H; [exists []; auto|].
  destruct (H x (or_introl eq_refl)) as (y & -> & Py). destruct IH as (ys & -> & F); [auto|]. exists (y :: ys). auto.
Qed.
Lemma Permutation_concat {A} (l m : list (list A)) : Permutation l m -> Permutation (List.concat l) (List.concat m).
Proof.
  induction 1; simpl; auto.
  - apply Permutation_app_head; auto.
  - rewrite !app_assoc. apply Permutation_app_tail. apply Permutation_app_comm.
  - eapply perm_trans; eauto.
Qed.

Theorem sort_ok : exists l, topological_sort g = Ok l /\ Permutation l (ids g) /\
  (forall rho, compat rho -> forall x y, edge g x y -> before l x y).
Proof.
  destruct (comps_ok (List.length (ids g)) (ids g)) as [P HC]; auto.
  { apply (wf_ids _ W). } { intros x Hx; exact Hx. }
  { intros x y E. destruct (edge_ids _ _ E). tauto. }
  unfold topological_sort, components.
  destruct (mapR_ok (sort_comp g) (fun c l => Permutation l c /\ (forall rho, compat rho -> forall x y, edge g x y -> In y c -> before l x y))
              (comps g (List.length (ids g)) (ids g))) as (ys & -> & F).
  { intros c Hc. destruct (HC c Hc) as (N & I & Hne & Hcl). destruct (sort_comp_ok c N I Hne Hcl) as (l & R & R'). eauto. }
  exists (List.concat (isort comp_lt ys)). split; [reflexivity|].
  assert (PY : Permutation (List.concat ys) (ids g)).
  { eapply perm_trans; [|exact P]. clear -F. induction F as [|c l cs ls [H _] F IH]; simpl; [constructor|]. apply Permutation_app; auto. }
  split.
  - eapply perm_trans; [apply Permutation_concat, Permutation_sym, isort_perm|exact PY].
  - intros rho CR x y E. destruct (edge_ids _ _ E) as [_ Hy].
    apply (Permutation_in _ (Permutation_sym P)) in Hy. apply in_concat in Hy. destruct Hy as (c & Hc & Hyc).
    assert (exists l, In l ys /\ before l x y) as (l & Hl & Hb).
    { clear -F Hc Hyc E CR. induction F as [|c' l cs ls [_ H] F IH]; [contradiction|].
      destruct Hc as [->|Hc]; [exists l; split; [left; auto|eapply H; eauto]|].
      destruct (IH Hc) as (l' & ? & ?). exists l'. split; [right; auto|auto]. }
    apply (Permutation_in _ (isort_perm comp_lt ys)) in Hl.
    rewrite <- (map_id (isort comp_lt ys)). apply (before_concat_in (fun l => l) _ l); auto.
Qed.

(** no node with several outgoing edges is reachable from another one *)
Definition antichain : Prop := forall x y, multi x -> multi y -> ~ path x y.
Lemma antichain_compat : antichain -> exists rho, compat rho.
Proof.
  intros H. exists (fun x => if Nat.ltb 1 (outdeg g x) then 0 else 1).
  assert (Z : forall p x s, multi p -> edge g p x -> anchor x s -> (if Nat.ltb 1 (outdeg g s) then 0 else 1) = 1).
  { intros p x s Hm E A. destruct (Nat.ltb_spec 1 (outdeg g s)) as [Hs|Hs]; auto.
    exfalso. apply (H p s); auto. eapply anchor_path; eauto. }
  split.
  - intros p x s Hm E A. rewrite (Z p x s Hm E A). unfold multi in Hm.
    destruct (Nat.ltb_spec 1 (outdeg g p)); lia.
  - intros p x x' s s' j j' Hm E E' A A' _ _ _. rewrite (Z p x s Hm E A), (Z p x' s' Hm E' A'). lia.
Qed.
End G.
