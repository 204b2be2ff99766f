(** C60: ConstantPropagation keeps every execution *)
From Coq Require Import ZArith List Bool String Lia.
From Verif Require Import Sym SymFacts SymFuns SymProofs1 IR IRFacts Users Reach ReachProofs UserGraph DeadData Propagate ConstProp PassCFGProps LoopProps PropagateProps.
Import ListNotations.
Local Open Scope string_scope.
Local Open Scope list_scope.
Local Open Scope Z_scope.

(** The write [w] of [p] is the definition [d]. *)
Definition holds_def (w : user) (d : dfn) (p : seq) : Prop := is_site w d /\
  siteS (fun q j o => u_at w = q -> u_el w = UOp j -> DOp o = d)
        (fun q a => u_at w = q -> u_el w = UAsg -> (exists f, In (u_x w, f) a) /\ forall f, In (u_x w, f) a -> DAsg (u_x w) f = d) [] 0 p.

Section Sites2.
  Variables (P1 P2 P3 : path -> nat -> op -> Prop) (Q1 Q2 Q3 : path -> assigns -> Prop).
  Hypothesis HP : forall p j o, P1 p j o -> P2 p j o -> P3 p j o.
  Hypothesis HQ : forall p a, Q1 p a -> Q2 p a -> Q3 p a.
  Lemma siteO_and p b : forall j, siteO P1 p j b -> siteO P2 p j b -> siteO P3 p j b.
  Proof. induction b as [|o b IH]; intros j A B; [exact Logic.I|]. destruct A as [A1 A2], B as [B1 B2]. split; [apply HP; assumption|apply IH; assumption]. Qed.
  Lemma site_and :
    (forall n p, siteN P1 Q1 p n -> siteN P2 Q2 p n -> siteN P3 Q3 p n) /\
    (forall s q k, siteS P1 Q1 q k s -> siteS P2 Q2 q k s -> siteS P3 Q3 q k s) /\
    (forall b p k, siteB P1 Q1 p k b -> siteB P2 Q2 p k b -> siteB P3 Q3 p k b).
  Proof.
    apply ir_mind; try (intros; exact Logic.I).
    - intros b p. apply siteO_and.
    - intros s IH p. apply IH.
    - intros bs IH p. apply IH.
    - intros s IH p. apply IH.
    - intros k i e c u s IH p. apply IH.
    - intros n IH a s IHs q k (A1 & A2 & A3) (B1 & B2 & B3). split; [apply IH; assumption|]. split; [apply HQ; assumption|apply IHs; assumption].
    - intros c s IH b IHb p k (A1 & A2) (B1 & B2). split; [apply IH; assumption|apply IHb; assumption].
  Qed.
End Sites2.

Lemma same_site p w1 w2 d : holds_def w1 d p -> holds_def w2 d p -> siteS (at_op d w1 w2) (at_tr d w1 w2) [] 0 p.
Proof.
  intros (A & H1) (B & H2). refine (proj1 (proj2 (site_and _ _ _ _ _ _ _ _)) _ _ _ H1 H2).
  - intros q j o K1 K2. split.
    + intros [E|E]; subst; [apply K1|apply K2]; reflexivity.
    + intros E1 E2. rewrite <- (K2 E1 E2). reflexivity.
  - intros q a K1 K2. split.
    + intros y f Hf [E|E]; subst; [apply K1|apply K2]; auto.
    + intros E1 E2. destruct (K2 E1 E2) as [(f & Hf) _]. destruct B as (_ & <- & _). apply (in_map fst) in Hf. exact Hf.
Qed.

Lemma uses_split d y : In y (d_uses d) -> In y (map in_name (d_ins d)) \/ In y (d_syms d).
Proof.
  destruct d as [o|x e]; cbn [d_uses]; intros H.
  - apply in_app_or in H as [H|H].
    + apply in_concat in H as (l & Hl & Hy). apply in_map_iff in Hl as (i & <- & Hi). destruct i as [z|y0 l]; [destruct Hy|]. destruct Hy as [->|Hy].
      * left. apply in_map_iff. exists (ORead y l). split; [reflexivity|]. apply filter_In. auto.
      * right. apply in_or_app. right. apply in_concat. exists (concat (map atoms l)). split; [|exact Hy]. apply in_map_iff. exists (ORead y0 l). split; [reflexivity|]. apply filter_In. auto.
    + right. apply in_or_app. left. exact H.
  - left. apply in_map_iff. exists (ORead y []). split; [reflexivity|]. apply in_map_iff. exists y. auto.
Qed.

(** Removing [w2].  [may_drop] are the pass's criteria, and the two definitions are the same: the pass does
    not compare right-hand sides ([C60_rhs_refuted]).  [quiet_between]: in no execution is a container
    that the definition reads written between [w1] and [w2]. *)
Theorem C60_constant_propagation_partial : forall I dom between p w1 w2 d st o st',
  dom_graph p dom -> testS p = true -> holds_def w1 d p -> holds_def w2 d p ->
  may_drop dom p w1 w2 d d between -> ~ In (d_out d) (d_syms d) ->
  (forall T, runsU I [] 0 p st o st' T -> quiet_between w1 w2 (d_uses d) T) ->
  runs I p st o st' -> exists st'', runs I (const_prop w2 p) st o st'' /\ steq st' st''.
Proof.
  intros I dom between p w1 w2 d st o st' D TE H1 H2 (ALL & NE & _ & DOM & _ & INS & _ & REC & _ & _) RS Q R.
  destruct (proj1 (proj2 (run_runU I)) _ _ _ _ R [] 0%nat) as (T & RT).
  refine (const_prop_sim I p dom w1 w2 d D TE (proj1 H1) (proj1 H2) NE (same_site p w1 w2 d H1 H2) ALL DOM _ _ st o st' T RT (Q T RT)).
  - intros K. apply uses_split in K as [K|K]; contradiction.
  - intros E. destruct (d_ins d) as [|i l] eqn:EI; [congruence|]. assert (K : In (in_name i) (map in_name (d_ins d))) by (rewrite EI; left; reflexivity).
    apply ins_uses in K. rewrite E in K. destruct K.
Qed.
(** [quiet_between] from the text of the program: every write of a container that the definition reads
    comes before [w1], in an earlier child of a sequence that is in no loop. *)
Theorem C60_program_order_partial : forall I dom between p w1 w2 d st o st',
  dom_graph p dom -> testS p = true -> holds_def w1 d p -> holds_def w2 d p ->
  may_drop dom p w1 w2 d d between -> ~ In (d_out d) (d_syms d) ->
  (forall u, In u (allwS [] 0 p) -> In (u_x u) (d_uses d) -> later u w1 \/ later w2 u) ->
  runs I p st o st' -> exists st'', runs I (const_prop w2 p) st o st'' /\ steq st' st''.
Proof.
  intros I dom between p w1 w2 d st o st' D TE H1 H2 M RS H R. refine (C60_constant_propagation_partial I dom between p w1 w2 d st o st' D TE H1 H2 M RS _ R).
  intros T RT A B C E _ u Hu [W K]. pose proof Hu as Hu'. apply in_split in Hu' as (B1 & B2 & EB).
  assert (IU : In u (allwS [] 0 p)). { apply (proj1 (proj2 (logged I)) _ _ _ _ _ _ _ RT u); [|exact W]. rewrite E. apply in_or_app; right; right; apply in_or_app; left; exact Hu. }
  destruct (H u IU K) as [L|L].
  - refine (program_order I p st o st' T _ _ A B1 (B2 ++ w2 :: C) RT L _). rewrite E, EB, <- app_assoc. reflexivity.
  - refine (program_order I p st o st' T _ _ (A ++ w1 :: B1) B2 C RT L _). rewrite E, EB, <- !app_assoc. reflexivity.
Qed.

(** The same with the two definitions compared as the pass compares them (container and subset written, set
    of inputs), plus what the pass does not compare: the tasklet's code (of one input) or the right-hand side. *)
Definition same_expression (d1 d2 : dfn) : Prop :=
  match d1, d2 with
  | DOp o1, DOp o2 => o_code o1 = o_code o2 /\ List.length (o_ins o1) = 1%nat /\ List.length (o_ins o2) = 1%nat
  | DAsg _ e1, DAsg _ e2 => e1 = e2
  | _, _ => False
  end.
Theorem C60_compared_partial : forall I dom between p w1 w2 d1 d2 st o st',
  dom_graph p dom -> testS p = true -> holds_def w1 d1 p -> holds_def w2 d2 p ->
  may_drop dom p w1 w2 d1 d2 between -> same_expression d1 d2 -> ~ In (d_out d1) (d_syms d1) ->
  (forall u, In u (allwS [] 0 p) -> In (u_x u) (d_uses d1) -> later u w1 \/ later w2 u) ->
  runs I p st o st' -> exists st'', runs I (const_prop w2 p) st o st'' /\ steq st' st''.
Proof.
  intros I dom between p w1 w2 d1 d2 st o st' D TE H1 H2 M SE RS H R.
  assert (d2 = d1) as ->.
  { destruct M as (_ & _ & EO & _ & ES & NE & EI & _). destruct d1 as [o1|x1 e1], d2 as [o2|x2 e2]; cbn [same_expression] in SE; try contradiction.
    - destruct SE as (EC & L1 & L2). destruct o1 as [c1 i1 x1 s1], o2 as [c2 i2 x2 s2]. cbn [o_code o_ins o_out o_sub d_out d_sub d_ins] in *. subst c2 x2 s2. f_equal. f_equal.
      destruct i1 as [|a [|]]; try discriminate. destruct i2 as [|b [|]]; try discriminate. cbn [filter] in *. destruct a as [z|y l]; [elim NE; reflexivity|].
      pose proof (proj1 (EI (ORead y l)) (or_introl eq_refl)) as K. destruct b as [z|y' l']; [elim K|]. destruct K as [K|[]]. rewrite K. reflexivity.
    - cbn in EO. subst. reflexivity. }
  exact (C60_program_order_partial I dom between p w1 w2 d1 st o st' D TE H1 H2 M RS H R).
Qed.

(* ---------------------------------------------------------------- *)
(** * Examples *)
(** n = 4; i = e1; y = i; i = e2; z = i *)
Definition c60_line (e1 e2 : expr) : seq :=
  skip [("n", EInt 4)] (skip [("i", e1)] (skip [("y", ESym "i")] (skip [("i", e2)] (skip [("z", ESym "i")] SNil)))).
Definition c60_n : user := U [Kid 0] UAsg true "n".
Definition c60_w1 : user := U [Kid 1] UAsg true "i".
Definition c60_w2 : user := U [Kid 3] UAsg true "i".
Definition c60_dom (u v : user) : bool := is_u u c60_n && is_u v c60_w1 || is_u u c60_w1 && is_u v c60_w2.
Definition asg_walk (p : path) (x : string) (e : expr) : utrace := rdU p UAsg (atoms e) ++ [U p UAsg true x].
Lemma skip_walk q k x e r s T : wlkS q k (skip [(x, e)] r) s T -> exists T', T = asg_walk (Kid k :: q) x e ++ T' /\ wlkS q (S k) r s T'.
Proof.
  intros H. unfold skip in H. inversion H as [|? ? ? ? ? ? T0 R0 N0 H0|? ? ? ? ? ? N0|]; subst; [|inversion N0]. inversion N0; subst.
  exists R0. split; [|exact H0]. unfold asgW, asg_walk, asg_reads. cbn [map concat fst snd blkU app]. rewrite !app_nil_r, <- app_assoc. reflexivity.
Qed.
Lemma nil_walk q k s T : wlkS q k SNil s T -> T = [].
Proof. intros H. inversion H. reflexivity. Qed.
Lemma c60_dom_ok e1 e2 : atoms e1 = ["n"] -> atoms e2 = ["n"] -> dom_graph (c60_line e1 e2) c60_dom.
Proof.
  intros A1 A2 u v H A B (e & W). unfold c60_line in W.
  apply skip_walk in W as (T0 & E0 & W). apply skip_walk in W as (T1 & -> & W). apply skip_walk in W as (T2 & -> & W). apply skip_walk in W as (T3 & -> & W). apply skip_walk in W as (T4 & -> & W). apply nil_walk in W. subst T4.
  unfold asg_walk in E0. rewrite A1, A2 in E0. cbn [atoms rdU map app] in E0.
  assert (Q : (u = c60_n /\ v = c60_w1) \/ (u = c60_w1 /\ v = c60_w2)).
  { unfold c60_dom in H. apply orb_true_iff in H as [H|H]; apply andb_true_iff in H as [Q1 Q2]; apply is_u_eq in Q1; apply is_u_eq in Q2; auto. }
  clear - E0 Q. symmetry in E0. unfold c60_n, c60_w1, c60_w2 in Q.
  repeat (destruct A as [|? A]; cbn [app] in E0; injection E0 as <- E0; [first [destruct Q as [(-> & Q)|(-> & Q)]; first [discriminate Q|cbn; tauto]]|]).
  destruct A; discriminate.
Qed.
Definition c60_e : expr := EAdd [EInt 1; ESym "n"].
Definition c60_quiet (p : seq) (w1 w2 : user) (l : list string) : Prop :=
  forall u, In u (allwS [] 0 p) -> In (u_x u) l -> u = w1 \/ u = w2 \/ later u w1 \/ later w2 u.
Lemma c60_may e1 e2 : atoms e1 = ["n"] -> atoms e2 = ["n"] ->
  may_drop c60_dom (c60_line e1 e2) c60_w1 c60_w2 (DAsg "i" e1) (DAsg "i" e2) (c60_quiet (c60_line e1 e2) c60_w1 c60_w2).
Proof.
  intros A1 A2. unfold may_drop. cbn [d_out d_sub d_ins d_syms]. rewrite A1, A2. cbn [map in_name in_sub concat app].
  split; [intros u [<-|[<-|[<-|[<-|[<-|[]]]]]] K; first [discriminate K|auto]|].
  split; [discriminate|]. split; [reflexivity|]. split; [reflexivity|]. split; [reflexivity|]. split; [discriminate|]. split; [tauto|]. split; [intros [K|[]]; discriminate|].
  split; [intros u [<-|[<-|[<-|[<-|[<-|[]]]]]] [K|[]]; first [discriminate K|reflexivity]|]. intros u _ K. unfold d_syms in K. cbn [d_ins d_sub] in K. rewrite A1 in K. destruct K.
Qed.
Lemma c60_holds e1 e2 : holds_def c60_w1 (DAsg "i" e1) (c60_line e1 e2) /\ holds_def c60_w2 (DAsg "i" e2) (c60_line e1 e2).
Proof.
  split; (split; [repeat split|]); unfold c60_line, skip, c60_w1, c60_w2; cbn [siteS siteN siteO];
  repeat (match goal with |- True => exact Logic.I | |- _ /\ _ => split end);
  try (intros K K'; first [discriminate K|split; [eexists; left; reflexivity|intros f [K1|[]]; inversion K1; reflexivity]]).
Qed.
Theorem C60_hypotheses : dom_graph (c60_line c60_e c60_e) c60_dom /\ testS (c60_line c60_e c60_e) = true /\
  holds_def c60_w1 (DAsg "i" c60_e) (c60_line c60_e c60_e) /\ holds_def c60_w2 (DAsg "i" c60_e) (c60_line c60_e c60_e) /\
  may_drop c60_dom (c60_line c60_e c60_e) c60_w1 c60_w2 (DAsg "i" c60_e) (DAsg "i" c60_e) (c60_quiet (c60_line c60_e c60_e) c60_w1 c60_w2) /\
  ~ In "i" (d_syms (DAsg "i" c60_e)) /\
  (forall u, In u (allwS [] 0 (c60_line c60_e c60_e)) -> In (u_x u) (d_uses (DAsg "i" c60_e)) -> later u c60_w1 \/ later c60_w2 u) /\
  const_prop c60_w2 (c60_line c60_e c60_e) = skip [("n", EInt 4)] (skip [("i", c60_e)] (skip [("y", ESym "i")] (skip [] (skip [("z", ESym "i")] SNil)))) /\
  exists st', runs I0 (c60_line c60_e c60_e) st0 ONorm st'.
Proof.
  split; [apply c60_dom_ok; reflexivity|]. split; [reflexivity|]. split; [apply c60_holds|]. split; [apply c60_holds|]. split; [apply c60_may; reflexivity|]. split; [intros []|]. split.
  - intros u [<-|[<-|[<-|[<-|[<-|[]]]]]] [K|[]]; try discriminate K. left. exists [], [], [], 0%nat, 1%nat. repeat split; lia.
  - split; [reflexivity|]. eexists. apply (xseq_runs I0 40). vm_compute. reflexivity.
Qed.

(** ** Where the pass's own criteria are not enough *)
(** The right-hand sides are not compared, only the containers they read:
    i = n; y = i; i = n + 1; z = i   loses the second assignment. *)
Theorem C60_rhs_refuted : dom_graph (c60_line (ESym "n") c60_e) c60_dom /\
  holds_def c60_w1 (DAsg "i" (ESym "n")) (c60_line (ESym "n") c60_e) /\ holds_def c60_w2 (DAsg "i" c60_e) (c60_line (ESym "n") c60_e) /\
  may_drop c60_dom (c60_line (ESym "n") c60_e) c60_w1 c60_w2 (DAsg "i" (ESym "n")) (DAsg "i" c60_e) (c60_quiet (c60_line (ESym "n") c60_e) c60_w1 c60_w2) /\
  ~ preserved_except (fun _ => False) (c60_line (ESym "n") c60_e) (const_prop c60_w2 (c60_line (ESym "n") c60_e)).
Proof.
  split; [apply c60_dom_ok; reflexivity|]. split; [apply c60_holds|]. split; [apply c60_holds|]. split; [apply c60_may; reflexivity|].
  apply (refute_differ 40 _ _ _ st0 "z" []); [vm_compute; reflexivity|auto].
Qed.
(** The definition may change a symbol of its own subset: i = A[i]; i = A[i] loses the second load.  The
    uses between the two definitions do not include the definitions themselves. *)
Definition c60_load : op := {| o_code := 0; o_ins := [ORead "A" [ESym "i"]]; o_out := "i"; o_sub := [] |}.
Definition c60_chase : seq := SCons (NBlock [c60_load]) [] (SCons (NBlock [c60_load]) [] SNil).
Definition c60_l1 : user := U [Kid 0] (UOp 0) true "i".
Definition c60_l2 : user := U [Kid 1] (UOp 0) true "i".
Definition c60_ldom (u v : user) : bool := is_u u c60_l1 && is_u v c60_l2.
Lemma c60_ldom_ok : dom_graph c60_chase c60_ldom.
Proof.
  intros u v H A B (e & W). unfold c60_ldom in H. apply andb_true_iff in H as [Q1 Q2]. apply is_u_eq in Q1; apply is_u_eq in Q2; subst u v. unfold c60_chase in W.
  inversion W as [|? ? ? ? ? ? T0 R0 N0 H0|? ? ? ? ? ? N0|]; subst; [|inversion N0]. inversion N0; subst.
  inversion H0 as [|? ? ? ? ? ? T1 R1 N1 H1|? ? ? ? ? ? N1|]; subst; [|inversion N1]. inversion N1; subst. inversion H1; subst.
  match goal with E : _ = A ++ _ :: B |- _ => cbn in E; rename E into E0 end. clear - E0. unfold c60_l1, c60_l2 in *.
  repeat (destruct A as [|? A]; cbn [app] in E0; [first [discriminate E0|cbn; tauto]|injection E0 as <- E0]); cbn; tauto.
Qed.
Theorem C60_subset_refuted : dom_graph c60_chase c60_ldom /\
  holds_def c60_l1 (DOp c60_load) c60_chase /\ holds_def c60_l2 (DOp c60_load) c60_chase /\
  may_drop c60_ldom c60_chase c60_l1 c60_l2 (DOp c60_load) (DOp c60_load) (c60_quiet c60_chase c60_l1 c60_l2) /\
  ~ preserved_except (fun _ => False) c60_chase (const_prop c60_l2 c60_chase).
Proof.
  split; [apply c60_ldom_ok|].
  split; [split; [split; [reflexivity|split; [reflexivity|exists 0%nat; reflexivity]]|unfold c60_chase, c60_l1, c60_l2; cbn [siteS siteN siteO]; repeat (match goal with |- True => exact Logic.I | |- _ /\ _ => split end); try (intros K K'; first [discriminate K|discriminate K'|reflexivity])]|].
  split; [split; [split; [reflexivity|split; [reflexivity|exists 0%nat; reflexivity]]|unfold c60_chase, c60_l1, c60_l2; cbn [siteS siteN siteO]; repeat (match goal with |- True => exact Logic.I | |- _ /\ _ => split end); try (intros K K'; first [discriminate K|discriminate K'|reflexivity])]|]. split.
  - unfold may_drop. cbn [d_out d_sub d_ins d_syms c60_load o_out o_ins o_sub filter map in_name in_sub concat app atoms].
    split; [intros u [<-|[<-|[]]] K; auto|]. split; [discriminate|]. split; [reflexivity|]. split; [reflexivity|]. split; [reflexivity|]. split; [discriminate|]. split; [tauto|]. split; [intros [K|[]]; discriminate|].
    split; [intros u [<-|[<-|[]]] [K|[]]; discriminate K|]. intros u [<-|[<-|[]]] _; auto.
  - apply (refute_differ 40 _ _ _ (fun x idx => if String.eqb x "A" then match idx with [z] => z + 1 | _ => 0 end else 0) "i" []); [vm_compute; reflexivity|auto].
Qed.
