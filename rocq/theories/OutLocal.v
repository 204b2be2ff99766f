(** * Local storage for an output of a loop

    Models sdfg/src/transformations/out_local_storage.cpp and get_iteration_count
    (sdfg/src/transformations/utils.cpp:9-51).
    Simplifications: types are not modelled; the new name [L] is a parameter (the
    code uses "__daisy_out_local_storage_" + the container's name); the clean-up
    passes run at the end (:121-128) are those of C12 - C15. *)
From Coq Require Import ZArith List Bool String Lia.
From Verif Require Import Sym SymFacts SymFuns IR IRFacts LoopIter GraphProps.
Import ListNotations.
Local Open Scope string_scope.
Local Open Scope list_scope.
Local Open Scope Z_scope.

(** Users::uses(A) inside a node, one subset for each use: memlets carry their subset,
    symbols (in subsets, conditions, transitions, loop headers) the empty one *)
Definition sym_use (A : string) (l : list string) : list (list expr) := if existsb (String.eqb A) l then [[]] else [].
Definition operand_uses (A : string) (o : operand) : list (list expr) :=
  match o with OConst _ => [] | ORead x s => (if String.eqb A x then [s] else []) ++ sym_use A (concat (map atoms s)) end.
Definition op_uses (A : string) (o : op) : list (list expr) :=
  concat (map (operand_uses A) (o_ins o)) ++ (if String.eqb A (o_out o) then [o_sub o] else []) ++ sym_use A (concat (map atoms (o_sub o))).
Definition asg_uses (A : string) (a : assigns) : list (list expr) := sym_use A (concat (map (fun xe => fst xe :: atoms (snd xe)) a)).
Fixpoint usesN (A : string) (n : node) : list (list expr) :=
  match n with
  | NBlock b => concat (map (op_uses A) b)
  | NSeq s | NWhile s => usesS A s
  | NIf bs => usesB A bs
  | NLoop _ i init c u s => sym_use A (i :: atoms init ++ catoms c ++ atoms u) ++ usesS A s
  | _ => []
  end
with usesS (A : string) (s : seq) : list (list expr) := match s with SNil => [] | SCons n a r => usesN A n ++ asg_uses A a ++ usesS A r end
with usesB (A : string) (b : brs) : list (list expr) := match b with BNil => [] | BCons c s r => sym_use A (catoms c) ++ usesS A s ++ usesB A r end.

(** utils.cpp:9-51 *)
Definition count1 (i : string) (init : expr) (l : cond) : option Z :=
  match l with
  | CLt a b =>
      let '(a, b) := if expr_eqb a (ESym i) then (a, b) else (b, a) in
      if expr_eqb a (ESym i) then match ssub b init with EInt z => Some z | _ => None end else None
  | _ => None
  end.
Definition is_lt (l : cond) : bool := match l with CLt _ _ => true | _ => false end.
Fixpoint count_and (i : string) (init : expr) (l : list cond) : option Z :=
  match l with
  | [] => None
  | c :: r => if is_lt c then match count1 i init c with Some z => Some z | None => count_and i init r end else None
  end.
Definition iteration_count (i : string) (init : expr) (c : cond) : option Z :=
  match c with CAnd l => count_and i init l | _ => count1 i init c end.

Definition sub_eqb (a b : list expr) : bool := Nat.eqb (List.length a) (List.length b) && forallb (fun p => expr_eqb (fst p) (snd p)) (combine a b).
(** can_be_applied (:30-107). [groups]: the uses in the loop body, for each its subsets
    (one for each memlet of the access node). The answer is the common subset and
    whether the local storage is an array. *)
Definition can_be_applied (groups : list (list (list expr))) (i : string) (init : expr) (c : cond) (body : seq) : option (list expr * bool) :=
  match groups with
  | (sub :: more) :: others =>
      let all_equal := match others with
        | [] => true (* :45: one use, nothing is compared *)
        | _ => forallb (fun g => Nat.eqb (List.length g) (S (List.length more)) && forallb (fun s => sub_eqb sub s) g) groups
        end in
      let ats := concat (map atoms (concat (sub :: more))) in
      if all_equal && negb (existsb (fun x => existsb (String.eqb x) (swrites body)) ats) then
        if existsb (String.eqb i) ats then match iteration_count i init c with Some _ => Some (sub, true) | None => None end
        else Some (sub, false)
      else None
  | _ => None
  end.

(** The loop with [A] replaced by [L] with subset [lsub] (:202-232, :276-296) *)
Section Replace.
  Variables (A L : string) (lsub : list expr).
  Definition oE (e : expr) : expr := subs e A (ESym L).
  Definition ols_operand (o : operand) : operand :=
    match o with OConst z => OConst z | ORead x s => if String.eqb A x then ORead L lsub else ORead x (map oE s) end.
  Definition ols_op (o : op) : op :=
    {| o_code := o_code o; o_ins := map ols_operand (o_ins o);
       o_out := if String.eqb A (o_out o) then L else o_out o; o_sub := if String.eqb A (o_out o) then lsub else map oE (o_sub o) |}.
  Fixpoint ols_node (n : node) : node :=
    match n with
    | NBlock b => NBlock (map ols_op b)
    | NSeq s => NSeq (ols_seq s)
    | NWhile s => NWhile (ols_seq s)
    | NIf bs => NIf (ols_brs bs)
    | NLoop k i init c u s => NLoop k (rename A (ESym L) i) (oE init) (csubs c A (ESym L)) (oE u) (ols_seq s)
    | NBreak => NBreak | NContinue => NContinue | NReturn q => NReturn q
    end
  with ols_seq (s : seq) : seq := match s with SNil => SNil | SCons n a r => SCons (ols_node n) (repl_asg A (ESym L) a) (ols_seq r) end
  with ols_brs (b : brs) : brs := match b with BNil => BNil | BCons c s r => BCons (csubs c A (ESym L)) (ols_seq s) (ols_brs r) end.
End Replace.

(** apply_scalar (:236-297): a copy before, a copy after. The loop's transition stays
    with the loop (add_block_after, structured_sdfg_builder.cpp:724-748), so the copy
    back comes after it. *)
Definition copy_op (cpy : nat) (x : string) (sx : list expr) (y : string) (sy : list expr) : op :=
  {| o_code := cpy; o_ins := [ORead x sx]; o_out := y; o_sub := sy |}.
Definition local_scalar (cpy : nat) (A L : string) (sub : list expr) (p : node) (a : assigns) (r : seq) : seq :=
  SCons (NBlock [copy_op cpy A sub L []]) [] (SCons (ols_node A L [] p) a (SCons (NBlock [copy_op cpy L [] A sub]) [] r)).
(** apply_array (:131-233): a loop with a new index variable [z] before and after *)
Definition move (i z : string) (l : list expr) : list expr := map (fun e => subs e i (ESym z)) l.
Definition copy_loop (i z : string) (init : expr) (c : cond) (u : expr) (o : op) : node :=
  NLoop KFor z init (csubs c i (ESym z)) (subs u i (ESym z)) (SCons (NBlock [o]) [] SNil).
Definition local_array (cpy : nat) (A L z : string) (sub : list expr) (k : kind) (i : string) (init : expr) (c : cond) (u : expr) (body : seq) (a : assigns) (r : seq) : seq :=
  SCons (copy_loop i z init c u (copy_op cpy A (move i z sub) L [ESym z])) []
    (SCons (ols_node A L [ESym i] (NLoop k i init c u body)) a
      (SCons (copy_loop i z init c u (copy_op cpy L [ESym z] A (move i z sub))) [] r)).

(* ---------------------------------------------------------------- *)
(** ** The body, with the elements [j] of [A] held in the elements [w] of [L] *)
Section Sim.
  Variables (I : nat -> list Z -> option Z) (A L : string) (sub lsub : list expr) (D : string -> Prop) (K : list Z -> list Z -> Prop) (w0 j0 : list Z).
  Hypothesis Kfun : forall w j j', K w j -> K w j' -> j = j'.
  Hypothesis Kinj : forall w w' j, K w j -> K w' j -> w = w'.
  Hypothesis K0 : K w0 j0.
  (** the names that only the new program uses *)
  Hypothesis DL : D L.
  Hypothesis scal : sub = [] -> lsub = [].
  Hypothesis lsubA : ~ In A (concat (map atoms lsub)) /\ avoids D (concat (map atoms lsub)).

  Definition held (s t : store) : Prop :=
    (forall w j, K w j -> t L w = s A j) /\ forall x j, ~ D x -> x <> A \/ (forall w, ~ K w j) -> t x j = s x j.
  Definition here (s : store) : Prop := evals (env_of s) sub = Some j0 /\ evals (env_of s) lsub = Some w0.
  Definition fine (us : list (list expr)) : Prop := forall s, In s us -> s = sub.
  Lemma fine_app a b : fine (a ++ b) <-> fine a /\ fine b.
  Proof. unfold fine. setoid_rewrite in_app_iff. split; [intros H; split; intros s Hs; apply H; auto|intros [H1 H2] s [Hs|Hs]; auto]. Qed.
  Lemma fine_sym l : fine (sym_use A l) -> In A l -> sub = [].
  Proof. unfold fine, sym_use. intros H Hl. destruct (existsb (String.eqb A) l) eqn:E; [symmetry; apply H; cbn; auto|]. assert (existsb (String.eqb A) l = true) by (apply existsb_exists; exists A; split; [auto|apply String.eqb_refl]). congruence. Qed.
  Lemma here_nil s : here s -> sub = [] -> j0 = [] /\ w0 = [].
  Proof. intros [H1 H2] E. rewrite (scal E) in H2. rewrite E in H1. cbn in H1, H2. split; congruence. Qed.
  Lemma held_env s t l : held s t -> here s -> avoids D l -> (In A l -> sub = []) -> forall x, In x l -> upd (env_of t) A (t L []) x = env_of s x.
  Proof.
    intros [H1 H2] H N S x Hx. unfold upd, env_of. destruct (String.eqb_spec A x) as [<-|M].
    - destruct (here_nil s H (S Hx)) as [-> ->]. apply H1. exact K0.
    - apply H2; [apply N; exact Hx|left; congruence].
  Qed.
  Lemma held_eval s t e : held s t -> here s -> avoids D (atoms e) -> (In A (atoms e) -> sub = []) -> eval (env_of t) (oE A L e) = eval (env_of s) e.
  Proof.
    intros H1 H2 N S. unfold eval, oE. rewrite (ev_subs _ _ _ _ (t L [])) by reflexivity. rewrite (ev_agree _ (env_of s)); [reflexivity|].
    intros x Hx. eapply held_env; eauto.
  Qed.
  Lemma held_cev s t c : held s t -> here s -> avoids D (catoms c) -> (In A (catoms c) -> sub = []) -> cev (env_of t) (csubs c A (ESym L)) = cev (env_of s) c.
  Proof. intros H1 H2 N S. rewrite (cev_subs _ _ _ _ (t L [])) by reflexivity. apply cev_agree. intros x Hx. eapply held_env; eauto. Qed.
  Lemma held_evals s t l : held s t -> here s -> avoids D (concat (map atoms l)) -> (In A (concat (map atoms l)) -> sub = []) -> evals (env_of t) (map (oE A L) l) = evals (env_of s) l.
  Proof.
    intros H1 H2. induction l as [|e l IH]; cbn [map concat evals]; intros N S; auto. rewrite in_app_iff in S. apply avoids_app in N as [N1 N2].
    rewrite (held_eval s t), IH; auto.
  Qed.
  Lemma held_lsub s t : held s t -> here s -> evals (env_of t) lsub = Some w0.
  Proof.
    intros [_ H] [_ E]. rewrite <- E. destruct lsubA as [NA NL]. apply evals_eqx with (D := fun x => x = A \/ D x).
    - intros x Hx j. apply H; [intros Q; auto|left; intros ->; auto].
    - intros x Hx [-> |Q]; [auto|exact (NL x Hx Q)].
  Qed.
  Lemma held_wr s t x j v : held s t -> ~ D x -> x <> A -> held (wr s x j v) (wr t x j v).
  Proof.
    intros [H1 H2] N M. split.
    - intros w k Hk. rewrite !wr_other; auto. left. intros ->. auto.
    - intros y k Hy Q. unfold wr. destruct (String.eqb x y && idx_eqb j k); auto.
  Qed.
  Lemma held_wrA s t v : held s t -> held (wr s A j0 v) (wr t L w0 v).
  Proof.
    intros [H1 H2]. split.
    - intros w k Hk. unfold wr. rewrite !String.eqb_refl. cbn [andb].
      destruct (idx_eqb w0 w) eqn:E1; destruct (idx_eqb j0 k) eqn:E2; auto.
      + apply idx_eqb_eq in E1. subst w. rewrite (Kfun _ _ _ K0 Hk) in E2. assert (idx_eqb k k = true) by (apply idx_eqb_eq; auto). congruence.
      + apply idx_eqb_eq in E2. subst k. rewrite (Kinj _ _ _ K0 Hk) in E1. assert (idx_eqb w w = true) by (apply idx_eqb_eq; auto). congruence.
    - intros x k Hx Q. rewrite wr_other by (left; intros ->; auto). rewrite H2 by auto. symmetry. apply wr_other.
      destruct Q as [Q|Q]; [left; congruence|right; intros ->; exact (Q w0 K0)].
  Qed.
  Definition steadyL (l : list string) : Prop := forall x, In x l -> ~ In x (concat (map atoms sub)) /\ ~ In x (concat (map atoms lsub)).
  Lemma st_app a b : steadyL (a ++ b) <-> steadyL a /\ steadyL b.
  Proof. unfold steadyL. setoid_rewrite in_app_iff. split; [intros H; split; intros s Hs; apply H; auto|intros [H1 H2] s [Hs|Hs]; auto]. Qed.
  Lemma st_cons x l : steadyL (x :: l) <-> steadyL [x] /\ steadyL l.
  Proof. apply (st_app [x] l). Qed.
  Lemma evs_agree e e' l : (forall x, In x (concat (map atoms l)) -> e x = e' x) -> evals e l = evals e' l.
  Proof.
    induction l as [|d l IH]; cbn [map concat evals]; intros H; auto. unfold eval. rewrite (ev_agree e e') by (intros x Hx; apply H; apply in_or_app; auto).
    rewrite IH; auto. intros x Hx. apply H. apply in_or_app. auto.
  Qed.
  Lemma here_keep s s' l : here s -> steadyL l -> (forall x, ~ In x l -> s' x [] = s x []) -> here s'.
  Proof.
    intros [H1 H2] S E. split; [rewrite <- H1|rewrite <- H2]; apply evs_agree; intros x Hx; unfold env_of; apply E; intros Q; destruct (S x Q); auto.
  Qed.
  Lemma here_wr s x j v : here s -> steadyL [x] -> here (wr s x j v).
  Proof. intros H S. apply (here_keep s _ [x] H S). intros y Hy. apply wr_other. left. intros ->. apply Hy. cbn. auto. Qed.

  Lemma held_reads s t l : held s t -> here s -> avoids D (concat (map opnames l)) -> fine (concat (map (operand_uses A) l)) -> reads_in t (map (ols_operand A L lsub) l) = reads_in s l.
  Proof.
    intros H1 H2. induction l as [|o l IH]; cbn [map concat reads_in]; intros N F; auto. apply avoids_app in N as [N1 N2]. apply fine_app in F as [F1 F2].
    rewrite IH by auto. assert (E: read_in t (ols_operand A L lsub o) = read_in s o); [|rewrite E; auto]. destruct o as [z|x sx]; cbn [ols_operand read_in]; auto.
    cbn [operand_uses] in F1. apply fine_app in F1 as [F1 F3]. cbn [opnames] in N1. apply avoids_cons in N1 as [N0 N1]. destruct (String.eqb_spec A x) as [<-|M]; cbn [read_in].
    - rewrite (F1 sx) by (cbn; auto). rewrite (held_lsub s t), (proj1 H2) by auto. rewrite (proj1 H1 w0 j0 K0). auto.
    - rewrite (held_evals s t); auto; [|apply fine_sym; exact F3].
      destruct (evals (env_of s) sx) as [j|]; auto. rewrite (proj2 H1); auto.
  Qed.
  Lemma held_block bl : forall s t s', held s t -> here s -> avoids D (block_names bl) -> fine (concat (map (op_uses A) bl)) -> steadyL (map o_out bl) ->
    exec_block I s bl = Some s' -> exists t', exec_block I t (map (ols_op A L lsub) bl) = Some t' /\ held s' t' /\ here s'.
  Proof.
    induction bl as [|o bl IH]; cbn [exec_block map concat]; intros s t s' H1 H2 N F S R; [injection R as <-; eauto|].
    change (block_names (o :: bl)) with (op_names o ++ block_names bl) in N. apply avoids_app in N as [N N2]. apply fine_app in F as [F1 F2]. apply st_cons in S as [S1 S2].
    unfold op_uses in F1. apply fine_app in F1 as [F1 F3]. apply fine_app in F3 as [F3 F4].
    unfold op_names in N. apply avoids_cons in N as [No N]. apply avoids_app in N as [Nr Ns].
    unfold exec_op in *. cbn [o_ins o_sub o_code o_out ols_op]. rewrite (held_reads s t) by auto.
    destruct (reads_in s (o_ins o)) as [vs|]; [|discriminate]. destruct (evals (env_of s) (o_sub o)) as [j|] eqn:Ej; [|discriminate].
    destruct (I (o_code o) vs) as [v|] eqn:Ev; [|discriminate].
    destruct (String.eqb_spec A (o_out o)) as [Q|Q].
    - rewrite (held_lsub s t) by auto. rewrite (F3 (o_sub o)) in Ej by (cbn; auto). rewrite (proj1 H2) in Ej. injection Ej as <-. rewrite <- Q in *.
      eapply IH; [| | | | |exact R]; auto. apply held_wrA; auto. apply here_wr; auto.
    - rewrite (held_evals s t), Ej; auto; [|apply fine_sym; exact F4]. eapply IH; [| | | | |exact R]; auto. apply held_wr; auto. apply here_wr; auto.
  Qed.
  Lemma held_wr0 s t x v : held s t -> here s -> ~ D x -> (x = A -> sub = []) -> steadyL [x] -> held (wr s x [] v) (wr t (rename A (ESym L) x) [] v) /\ here (wr s x [] v).
  Proof.
    intros H1 H2 N Q S. split; [|apply here_wr; auto]. cbn [rename]. destruct (String.eqb_spec A x) as [<-|M]; [|apply held_wr; auto].
    destruct (here_nil s H2 (Q eq_refl)) as [E1 E2]. rewrite <- E1 at 1. rewrite <- E2. apply held_wrA. exact H1.
  Qed.
  Lemma held_assigns l : forall s t s', held s t -> here s -> avoids D (asg_names l) -> fine (asg_uses A l) -> steadyL (map fst l) ->
    exec_assigns s l = Some s' -> exists t', exec_assigns t (repl_asg A (ESym L) l) = Some t' /\ held s' t' /\ here s'.
  Proof.
    intros s t s' H1 H2 N F S R. assert (F': In A (asg_names l) -> sub = []) by (apply fine_sym; exact F). clear F. revert s t s' H1 H2 N F' S R.
    induction l as [|[x e] l IH]; intros s t s' H1 H2 N F S R.
    - injection R as <-. exists t. auto.
    - change (asg_names ((x, e) :: l)) with ((x :: atoms e) ++ asg_names l) in N, F. rewrite in_app_iff in F. apply avoids_app in N as [N N2]. apply avoids_cons in N as [N0 N]. cbn [map fst] in S. apply st_cons in S as [S1 S2].
      cbn [repl_asg map fst snd exec_assigns] in *. change (subs e A (ESym L)) with (oE A L e). rewrite (held_eval s t); auto; [|intros Q; apply F; left; right; auto].
      destruct (eval (env_of s) e) as [v|]; [|discriminate].
      destruct (held_wr0 s t x v H1 H2) as [H3 H4]; auto; [intros ->; apply F; left; left; auto|].
      apply (IH _ _ _ H3 H4); auto.
  Qed.
  Notation out := (avoids D).
  Lemma fine_head i init c u : fine (sym_use A (i :: atoms init ++ catoms c ++ atoms u)) ->
    (i = A -> sub = []) /\ (In A (atoms init) -> sub = []) /\ (In A (catoms c) -> sub = []) /\ (In A (atoms u) -> sub = []).
  Proof. intros F. pose proof (fine_sym _ F) as G. cbn [In] in G. rewrite !in_app_iff in G. repeat split; intros; apply G; auto. Qed.
  Lemma held_sim :
    (forall n s o s', run I n s o s' -> forall t, out (nnames n) -> fine (usesN A n) -> steadyL (nwrites n) -> held s t -> here s ->
       exists t', run I (ols_node A L lsub n) t o t' /\ held s' t' /\ here s') /\
    (forall n s o s', runs I n s o s' -> forall t, out (snames n) -> fine (usesS A n) -> steadyL (swrites n) -> held s t -> here s ->
       exists t', runs I (ols_seq A L lsub n) t o t' /\ held s' t' /\ here s') /\
    (forall n s o s', runb I n s o s' -> forall t, out (bnames n) -> fine (usesB A n) -> steadyL (bwrites n) -> held s t -> here s ->
       exists t', runb I (ols_brs A L lsub n) t o t' /\ held s' t' /\ here s') /\
    (forall n s o s', runw I n s o s' -> forall t, out (snames n) -> fine (usesS A n) -> steadyL (swrites n) -> held s t -> here s ->
       exists t', runw I (ols_seq A L lsub n) t o t' /\ held s' t' /\ here s') /\
    (forall i c u n s o s', runl I i c u n s o s' -> forall t, out (i :: catoms c ++ atoms u ++ snames n) -> (i = A -> sub = []) -> (In A (catoms c) -> sub = []) -> (In A (atoms u) -> sub = []) ->
       fine (usesS A n) -> steadyL (i :: swrites n) -> held s t -> here s ->
       exists t', runl I (rename A (ESym L) i) (csubs c A (ESym L)) (oE A L u) (ols_seq A L lsub n) t o t' /\ held s' t' /\ here s').
  Proof.
    apply run_mind; cbn [nnames snames bnames nwrites swrites bwrites usesN usesS usesB ols_node ols_seq ols_brs]; intros;
      repeat match goal with H : out (_ ++ _) |- _ => apply avoids_app in H as [? ?] | H : out (_ :: _) |- _ => apply avoids_cons in H as [? ?]
                           | H : fine (_ ++ _) |- _ => apply fine_app in H as [? ?] | H : steadyL (_ ++ _) |- _ => apply st_app in H as [? ?]
                           | H : fine (sym_use A (_ :: atoms _ ++ _)) |- _ => apply fine_head in H as (? & ? & ? & ?) 
                           | H : steadyL (?x :: _ :: _) |- _ => apply st_cons in H as [? ?] end.
    all: try (match goal with H : steadyL (_ :: swrites _) |- _ => pose proof H as SC; apply st_cons in SC as [? ?] end).
    - destruct (held_block b st t st') as (q & ? & ? & ?); auto. exists q; split; auto; constructor; auto.
    - destruct (H0 t) as (q & ? & ? & ?); auto; exists q; split; auto; constructor; auto.
    - destruct (H0 t) as (q & ? & ? & ?); auto; exists q; split; auto; constructor; auto.
    - destruct (H0 t) as (q & ? & ? & ?); auto; exists q; split; auto; constructor; auto.
    - destruct (held_wr0 st t i v) as [? ?]; auto.
      destruct (H1 (wr t (rename A (ESym L) i) [] v)) as (q & ? & ? & ?); auto. { rewrite avoids_cons, !avoids_app. auto. }
      exists q; split; auto. econstructor; eauto. rewrite (held_eval st t); auto.
    - eexists; split; eauto; constructor.
    - eexists; split; eauto; constructor.
    - eexists; split; eauto; constructor.
    - eexists; split; eauto; constructor.
    - destruct (H0 t) as (q & ? & ? & ?); auto. destruct (held_assigns a st1 q st2) as (q2 & ? & ? & ?); auto.
      destruct (H3 q2) as (q3 & ? & ? & ?); auto. exists q3; split; auto. econstructor; eauto.
    - destruct (H0 t) as (q & ? & ? & ?); auto. exists q; split; auto. apply R_exit; auto.
    - eexists; split; eauto; constructor.
    - destruct (H1 t) as (q & ? & ? & ?); auto. exists q; split; auto. apply R_btrue; auto. rewrite (held_cev st t); auto. apply fine_sym; auto.
    - destruct (H1 t) as (q & ? & ? & ?); auto. exists q; split; auto. apply R_bfalse; auto. rewrite (held_cev st t); auto. apply fine_sym; auto.
    - destruct (H0 t) as (q & ? & ? & ?); auto. destruct (H3 q) as (q2 & ? & ? & ?); auto. exists q2; split; auto. eapply R_wnext; eauto.
    - destruct (H0 t) as (q & ? & ? & ?); auto. exists q; split; auto. apply R_wbreak; auto.
    - destruct (H0 t) as (q & ? & ? & ?); auto. exists q; split; auto. apply R_wret; auto.
    - exists t; split; auto. apply R_lend. rewrite (held_cev st t); auto.
    - destruct (H1 t) as (q & ? & ? & ?); auto. destruct (held_wr0 st1 q i v) as [? ?]; auto.
      destruct (H5 (wr q (rename A (ESym L) i) [] v)) as (q2 & ? & ? & ?); auto. { rewrite avoids_cons, !avoids_app. auto. }
      exists q2; split; auto. eapply R_lnext; eauto; [rewrite (held_cev st t); auto|rewrite (held_eval st1 q); auto].
    - destruct (H1 t) as (q & ? & ? & ?); auto. exists q; split; auto. apply R_lbreak; auto. rewrite (held_cev st t); auto.
    - destruct (H1 t) as (q & ? & ? & ?); auto. exists q; split; auto. apply R_lret; auto. rewrite (held_cev st t); auto.
  Qed.
End Sim.

(* ---------------------------------------------------------------- *)
(** ** Uses are made of names of the program *)
Lemma sym_use_in A l s : In s (sym_use A l) -> s = [] /\ In A l.
Proof.
  unfold sym_use. destruct (existsb (String.eqb A) l) eqn:E; [|intros []]. intros [<-|[]]. split; auto. apply existsb_exists in E as (x & Hx & Q). apply String.eqb_eq in Q. congruence.
Qed.
Lemma sym_use_has A l : In A l -> In [] (sym_use A l).
Proof. intros H. unfold sym_use. assert (E: existsb (String.eqb A) l = true) by (apply existsb_exists; exists A; split; [auto|apply String.eqb_refl]). rewrite E. cbn. auto. Qed.
Lemma op_uses_in A o s x : In s (op_uses A o) -> In x (concat (map atoms s)) -> In x (op_names o) /\ (x = A -> In [] (op_uses A o)).
Proof.
  unfold op_uses, op_names. intros H Hx. apply in_app_or in H as [H|H]; [|apply in_app_or in H as [H|H]].
  - apply in_concat in H as (l & Hl & Hs). apply in_map_iff in Hl as (q & <- & Hq). destruct q as [z|y sy]; [destruct Hs|]. cbn [operand_uses] in Hs. apply in_app_or in Hs as [Hs|Hs].
    + destruct (String.eqb_spec A y) as [<-|]; [|destruct Hs]. destruct Hs as [<-|[]]. split.
      * cbn. right. apply in_or_app. left. apply in_concat. exists (opnames (ORead A sy)). split; [apply in_map; exact Hq|cbn; auto].
      * intros ->. apply in_or_app. left. apply in_concat. exists (operand_uses A (ORead A sy)). split; [apply in_map; exact Hq|]. cbn [operand_uses]. apply in_or_app. right. apply sym_use_has. exact Hx.
    + apply sym_use_in in Hs as [-> _]. destruct Hx.
  - destruct (String.eqb_spec A (o_out o)) as [E|]; [|destruct H]. destruct H as [<-|[]]. split; [cbn; right; apply in_or_app; auto|].
    intros ->. apply in_or_app. right. apply in_or_app. right. apply sym_use_has. exact Hx.
  - apply sym_use_in in H as [-> _]. destruct Hx.
Qed.
Lemma uses_in A x s : In x (concat (map atoms s)) ->
  (forall n, In s (usesN A n) -> In x (nnames n) /\ (x = A -> In [] (usesN A n))) /\
  (forall n, In s (usesS A n) -> In x (snames n) /\ (x = A -> In [] (usesS A n))) /\
  (forall n, In s (usesB A n) -> In x (bnames n) /\ (x = A -> In [] (usesB A n))).
Proof.
  intros Hx. assert (SY: forall l, In s (sym_use A l) -> False) by (intros l Q; apply sym_use_in in Q as [-> _]; destruct Hx).
  apply ir_mind; cbn [usesN usesS usesB nnames snames bnames]; intros; try contradiction.
  - apply in_concat in H as (l & Hl & Hs). apply in_map_iff in Hl as (o & <- & Ho). destruct (op_uses_in A o s x Hs Hx) as [H1 H2]. split.
    + unfold block_names. apply in_concat. exists (op_names o). split; [apply in_map; exact Ho|exact H1].
    + intros E. apply in_concat. exists (op_uses A o). split; [apply in_map; exact Ho|auto].
  - auto.
  - auto.
  - auto.
  - apply in_app_or in H0 as [H0|H0]; [destruct (SY _ H0)|]. destruct (H H0) as [H1 H2]. split; [|intros E; apply in_or_app; auto].
    right. rewrite !in_app_iff. auto.
  - rewrite !in_app_iff in H1. destruct H1 as [H1|[H1|H1]]; [| |].
    + destruct (H H1). rewrite !in_app_iff. auto.
    + destruct (SY _ H1).
    + destruct (H0 H1). rewrite !in_app_iff. auto.
  - rewrite !in_app_iff in H1. destruct H1 as [H1|[H1|H1]]; [| |].
    + destruct (SY _ H1).
    + destruct (H H1). rewrite !in_app_iff. auto.
    + destruct (H0 H1). rewrite !in_app_iff. auto.
Qed.
(** ** No return, no early way out *)
Lemma noret_run I :
  (forall n s o s', run I n s o s' -> noretN n = true -> forall r, o <> ORet r) /\
  (forall n s o s', runs I n s o s' -> noretS n = true -> forall r, o <> ORet r) /\
  (forall n s o s', runb I n s o s' -> noretB n = true -> forall r, o <> ORet r) /\
  (forall n s o s', runw I n s o s' -> noretS n = true -> forall r, o <> ORet r) /\
  (forall i c u n s o s', runl I i c u n s o s' -> noretS n = true -> forall r, o <> ORet r).
Proof.
  apply run_mind; cbn [noretN noretS noretB]; intros; try discriminate; repeat match goal with H : _ && _ = true |- _ => apply andb_true_iff in H as [? ?] end; eauto.
Qed.
Lemma loop_exit I k i init c u body s o s' : run I (NLoop k i init c u body) s o s' -> o = ONorm \/ exists r, o = ORet r.
Proof. intros R. inversion R as [| | | |k0 i0 init0 c0 u0 b0 st v o0 st' EV RL| | |]; subst. clear EV R. induction RL; eauto. Qed.
(** ** The transition after the loop *)
Lemma held_trans (A L : string) (D : string -> Prop) (K : list Z -> list Z -> Prop) (a : assigns) (s t s' : store) : D L -> ~ D A -> held A L D K s t -> ~ In A (asg_names a) -> avoids D (asg_names a) -> exec_assigns s a = Some s' ->
  exists t', exec_assigns t a = Some t' /\ held A L D K s' t' /\ (forall x j, D x -> t' x j = t x j) /\ (forall x j, ~ In x (map fst a) -> t' x j = t x j).
Proof.
  intros DL DA [H1 H2] NA ND E.
  assert (RN: forall x, In x (asg_reads a) -> In x (asg_names a)).
  { intros x Hx. unfold asg_reads in Hx. unfold asg_names. apply in_concat in Hx as (l & Hl & Hq). apply in_map_iff in Hl as (xe & <- & He). apply in_concat. exists (fst xe :: atoms (snd xe)). split; [apply (in_map (fun xe => fst xe :: atoms (snd xe))); exact He|right; exact Hq]. }
  assert (WN: forall x, In x (map fst a) -> In x (asg_names a)).
  { intros x Hx. apply in_map_iff in Hx as (xe & <- & He). unfold asg_names. apply in_concat. exists (fst xe :: atoms (snd xe)). split; [apply (in_map (fun xe => fst xe :: atoms (snd xe))); exact He|left; reflexivity]. }
  destruct (exec_assigns_eqx (fun x => x = A \/ D x) a s t s') as (t' & Et & Q); [| |exact E|].
  - intros x Hx j. symmetry. apply H2; [intros Z; auto|left; intros ->; auto].
  - intros x Hx [-> |Z]; [apply NA, RN, Hx|exact (ND x (RN x Hx) Z)].
  - exists t'. split; [exact Et|]. assert (TD: forall x j, D x -> t' x j = t x j) by (intros x j Hx; apply (exec_assigns_writes a _ _ Et); intros Z; exact (ND x (WN x Z) Hx)).
    assert (TA: forall j, t' A j = t A j) by (intros j; apply (exec_assigns_writes a _ _ Et); intros Z; apply NA, WN, Z).
    assert (SA: forall j, s' A j = s A j) by (intros j; apply (exec_assigns_writes a _ _ E); intros Z; apply NA, WN, Z).
    split; [|split; [exact TD|intros x j Hx; apply (exec_assigns_writes a _ _ Et); exact Hx]]. split.
    + intros w j Hw. rewrite TD, SA by auto. auto.
    + intros x j Hx Z. destruct (String.eqb_spec x A) as [->|N]; [rewrite TA, SA; apply H2; auto|]. symmetry. apply Q. intros [?|?]; auto.
Qed.

(* ---------------------------------------------------------------- *)
(** ** The array: copies in, the loop, copies out *)
Lemma ols_writes A L lsub x :
  (forall n, In x (nwrites (ols_node A L lsub n)) -> x = L \/ In x (nwrites n)) /\
  (forall n, In x (swrites (ols_seq A L lsub n)) -> x = L \/ In x (swrites n)) /\
  (forall n, In x (bwrites (ols_brs A L lsub n)) -> x = L \/ In x (bwrites n)).
Proof.
  apply ir_mind; cbn [nwrites swrites bwrites ols_node ols_seq ols_brs]; intros; auto.
  - rewrite map_map in H. apply in_map_iff in H as (o & E & Ho). cbn [ols_op o_out] in E. destruct (String.eqb A (o_out o)); [auto|]. right. rewrite <- E. apply in_map. exact Ho.
  - destruct H0 as [E|H0]; [|destruct (H H0); cbn; auto]. cbn [rename] in E. destruct (String.eqb A i); cbn; auto.
  - rewrite !in_app_iff in H1. rewrite !in_app_iff. destruct H1 as [Q|[Q|Q]]; [destruct (H Q); auto| |destruct (H0 Q); auto].
    unfold repl_asg in Q. rewrite map_map in Q. apply in_map_iff in Q as ([y e] & E & Hy). cbn [fst rename] in E. destruct (String.eqb A y); [auto|]. right. right. left. rewrite <- E. apply (in_map fst _ (y, e)). exact Hy.
  - rewrite !in_app_iff in H1. rewrite !in_app_iff. destruct H1 as [Q|Q]; [destruct (H Q); auto|destruct (H0 Q); auto].
Qed.
Section Array.
  Variables (I : nat -> list Z -> option Z) (cpy : nat) (A L z i : string) (sub : list expr).
  Hypothesis CP : forall v, I cpy [v] = Some v.
  Hypothesis AL : A <> L.
  Hypothesis Az : A <> z.
  Hypothesis Lz : L <> z.
  Hypothesis subL : ~ In L (concat (map atoms sub)).
  Hypothesis subz : ~ In z (concat (map atoms sub)).
  Hypothesis subA : ~ In A (concat (map atoms sub)).
  (** the element of iteration [w] *)
  Definition elem (e : env) (w : Z) (j : list Z) : Prop := evals (upd e i w) sub = Some j.
  Lemma move_elem e w : evals (upd e z w) (move i z sub) = evals (upd e i w) sub.
  Proof.
    unfold move. induction sub as [|d l IH]; cbn [map concat evals] in *; auto. rewrite in_app_iff in subz.
    rewrite IH; [|intros Q; apply subL; cbn; rewrite in_app_iff; auto|intros Q; apply subz; auto|intros Q; apply subA; cbn; rewrite in_app_iff; auto].
    assert (E: eval (upd e z w) (subs d i (ESym z)) = eval (upd e i w) d); [|rewrite E; reflexivity].
    unfold eval. rewrite (ev_subs _ _ _ _ w) by (cbn; unfold upd; rewrite String.eqb_refl; reflexivity).
    rewrite (ev_agree _ (upd e i w)); auto. intros x Hx. unfold upd. destruct (String.eqb_spec i x) as [|N]; auto. destruct (String.eqb_spec z x) as [<-|]; auto. destruct subz; auto.
  Qed.
  Lemma elem_agree e e' w j : (forall x, In x (concat (map atoms sub)) -> x <> i -> e x = e' x) -> elem e w j -> elem e' w j.
  Proof. intros H E. unfold elem in *. rewrite <- E. apply evs_agree. intros x Hx. unfold upd. destruct (String.eqb_spec i x) as [|N]; auto. symmetry. apply H; auto. Qed.
  Definition cin : seq := SCons (NBlock [copy_op cpy A (move i z sub) L [ESym z]]) [] SNil.
  Definition cout : seq := SCons (NBlock [copy_op cpy L [ESym z] A (move i z sub)]) [] SNil.
  Lemma cin_run a w j : elem (env_of a) w j -> runs I cin (wr a z [] w) ONorm (wr (wr a z [] w) L [w] (a A j)).
  Proof.
    intros E. eapply R_cons; [|reflexivity|apply R_nil]. apply R_block. cbn [exec_block]. unfold exec_op. cbn [copy_op o_ins o_sub o_code o_out reads_in read_in evals].
    assert (EM: evals (env_of (wr a z [] w)) (move i z sub) = Some j).
    { unfold elem in E. rewrite <- E, <- move_elem. apply evs_agree. intros x _. apply env_wr_scalar. }
    assert (EZ: eval (env_of (wr a z [] w)) (ESym z) = Some w) by (unfold eval; cbn [ev]; unfold env_of; rewrite wr_same; reflexivity).
    rewrite EM, CP, EZ. rewrite (wr_other a z); auto.
  Qed.
  Lemma cout_run a w j : elem (env_of a) w j -> runs I cout (wr a z [] w) ONorm (wr (wr a z [] w) A j (a L [w])).
  Proof.
    intros E. eapply R_cons; [|reflexivity|apply R_nil]. apply R_block. cbn [exec_block]. unfold exec_op. cbn [copy_op o_ins o_sub o_code o_out reads_in read_in evals].
    assert (EM: evals (env_of (wr a z [] w)) (move i z sub) = Some j).
    { unfold elem in E. rewrite <- E, <- move_elem. apply evs_agree. intros x _. apply env_wr_scalar. }
    assert (EZ: eval (env_of (wr a z [] w)) (ESym z) = Some w) by (unfold eval; cbn [ev]; unfold env_of; rewrite wr_same; reflexivity).
    rewrite EM, EZ, CP. rewrite (wr_other a z); auto.
  Qed.
  (** the copies in *)
  Lemma fill e vs : (forall w, In w vs -> exists j, elem e w j) -> forall a, (forall x, In x (concat (map atoms sub)) -> x <> i -> e x = env_of a x) ->
    exists b, iterL (raw I z cin) vs a b /\ (forall w j, In w vs -> elem e w j -> b L [w] = a A j) /\ (forall w, ~ In w vs -> b L [w] = a L [w]) /\ (forall x j, x <> L -> x <> z -> b x j = a x j).
  Proof.
    intros EX. induction vs as [|w vs IH]; intros a AG.
    - exists a. split; [apply eqx_refl|]. split; [intros w j []|]. auto.
    - destruct (EX w (or_introl eq_refl)) as (j & Ej). assert (Ea: elem (env_of a) w j) by (eapply elem_agree; eauto).
      destruct (IH (fun w' H => EX w' (or_intror H)) (wr (wr a z [] w) L [w] (a A j))) as (b & Lb & B1 & B2 & B3).
      { intros x Hx N. unfold env_of. rewrite wr_other by (left; intros ->; auto). rewrite wr_other by (left; intros ->; auto). apply AG; auto. }
      exists b. split; [exists (wr (wr a z [] w) L [w] (a A j)); split; [exists ONorm; split; [auto|apply cin_run; exact Ea]|exact Lb]|].
      assert (OLD: forall k, wr (wr a z [] w) L [w] (a A j) A k = a A k) by (intros k; rewrite wr_other by auto; apply wr_other; auto).
      split; [|split].
      + intros w' j' Hw Ej'. destruct (in_dec Z.eq_dec w' vs) as [Y|N]; [rewrite (B1 w' j' Y Ej'); apply OLD|].
        destruct Hw as [<-|Hw]; [|contradiction]. rewrite (B2 w N), wr_same. unfold elem in *. congruence.
      + intros w' Hw. rewrite B2 by (intros Q; apply Hw; right; exact Q). rewrite wr_other by (right; intros Q; apply Hw; left; congruence). apply wr_other. auto.
      + intros x k N1 N2. rewrite B3 by auto. rewrite wr_other by auto. apply wr_other. auto.
  Qed.
  (** the copies out *)
  Lemma spill e vs : (forall w, In w vs -> exists j, elem e w j) -> (forall w w' j, In w vs -> In w' vs -> elem e w j -> elem e w' j -> w = w') ->
    forall a, (forall x, In x (concat (map atoms sub)) -> x <> i -> e x = env_of a x) ->
    exists b, iterL (raw I z cout) vs a b /\ (forall w j, In w vs -> elem e w j -> b A j = a L [w]) /\ (forall j, (forall w, In w vs -> ~ elem e w j) -> b A j = a A j) /\ (forall x j, x <> A -> x <> z -> b x j = a x j).
  Proof.
    intros EX INJ. induction vs as [|w vs IH]; intros a AG.
    - exists a. split; [apply eqx_refl|]. split; [intros w j []|]. auto.
    - destruct (EX w (or_introl eq_refl)) as (j & Ej). assert (Ea: elem (env_of a) w j) by (eapply elem_agree; eauto).
      destruct (IH (fun w' H => EX w' (or_intror H)) (fun w1 w2 k H1 H2 => INJ w1 w2 k (or_intror H1) (or_intror H2)) (wr (wr a z [] w) A j (a L [w]))) as (b & Lb & B1 & B2 & B3).
      { intros x Hx N. unfold env_of. rewrite wr_other by (left; intros ->; auto). rewrite wr_other by (left; intros ->; auto). apply AG; auto. }
      exists b. split; [exists (wr (wr a z [] w) A j (a L [w])); split; [exists ONorm; split; [auto|apply cout_run; exact Ea]|exact Lb]|].
      assert (OLD: forall k, wr (wr a z [] w) A j (a L [w]) L k = a L k) by (intros k; rewrite wr_other by auto; apply wr_other; auto).
      split; [|split].
      + intros w' j' Hw Ej'. destruct (in_dec Z.eq_dec w' vs) as [Y|N]; [rewrite (B1 w' j' Y Ej'); apply OLD|].
        destruct Hw as [<-|Hw]; [|contradiction]. assert (j' = j) by (unfold elem in *; congruence). subst j'. rewrite B2; [apply wr_same|].
        intros w2 H2 E2. apply N. rewrite (INJ w w2 j (or_introl eq_refl) (or_intror H2) Ej E2). exact H2.
      + intros k Hk. rewrite B2 by (intros w2 H2; apply Hk; right; exact H2). rewrite wr_other by (right; intros ->; exact (Hk w (or_introl eq_refl) Ej)). apply wr_other. auto.
      + intros x k N1 N2. rewrite B3 by auto. rewrite wr_other by auto. apply wr_other. auto.
  Qed.
End Array.
