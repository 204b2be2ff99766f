(** C56: SymbolPropagation keeps every execution *)
From Coq Require Import ZArith List Bool String Lia.
From Verif Require Import Sym SymFacts SymFuns SymProofs1 IR IRFacts Users Reach ReachProofs UserGraph Propagate PassCFGProps LoopProps.
Import ListNotations.
Local Open Scope string_scope.
Local Open Scope list_scope.
Local Open Scope Z_scope.

(** Replacing the read [r] of [x] by the right-hand side of the only assignment
    that reaches it.  [pd], [dom] are dominance on the users graph; [undisturbed]: in
    no execution is a symbol of [rhs] written between the write and the read.  What is
    missing: [undisturbed] does not follow from the pass's own check ([may_propagate]), see
    the refutations; [x] must be [regular] (C49). *)
Theorem C56_symbol_propagation_partial : forall I x rhs pd dom cov last p pw r st o st',
  pd_graph p pd -> dom_graph p dom -> testS p = true -> regular x true p = true -> (u_el r = UUpd -> ncS p = true) ->
  may_propagate x rhs pd dom cov last p pw r ->
  (forall T, runsU I [] 0 p st o st' T -> undisturbed x rhs (U pw UAsg true x) r T) ->
  runs I p st o st' -> runs I (propagate x rhs r p) st o st'.
Proof.
  intros I x rhs pd dom cov last p pw r st o st' G D TE REG NC (RR & RX & ONE & ASG & FR & DOM & _) UN R.
  destruct (proj1 (proj2 (run_runU I)) _ _ _ _ R [] 0%nat) as (T & RT).
  exact (propagate_sim I x rhs pd dom cov last p pw r G D TE REG RR RX NC ONE DOM FR ASG st o st' T RT (UN T RT)).
Qed.
(** [undisturbed] from the text of the program: every write of a symbol of [rhs] comes
    before the assignment or after the read, in different children of a sequence that is
    in no loop.  With no such writes (parameters, constants) nothing is left to check. *)
Theorem C56_program_order_partial : forall I x rhs pd dom cov last p pw r st o st',
  pd_graph p pd -> dom_graph p dom -> testS p = true -> regular x true p = true -> (u_el r = UUpd -> ncS p = true) ->
  may_propagate x rhs pd dom cov last p pw r ->
  (forall u, In u (allwS [] 0 p) -> In (u_x u) (atoms rhs) -> later u (U pw UAsg true x) \/ later r u) ->
  runs I p st o st' -> runs I (propagate x rhs r p) st o st'.
Proof.
  intros I x rhs pd dom cov last p pw r st o st' G D TE REG NC M H R. eapply C56_symbol_propagation_partial; eauto.
  intros T RT A B C E _ u Hu [W K]. pose proof Hu as Hu'. apply in_split in Hu' as (B1 & B2 & EB).
  assert (IU : In u (allwS [] 0 p)). { apply (proj1 (proj2 (logged I)) _ _ _ _ _ _ _ RT u); [|exact W]. rewrite E. apply in_or_app; right; right; apply in_or_app; left; exact Hu. }
  destruct (H u IU K) as [L|L].
  - refine (program_order I p st o st' T _ _ A B1 (B2 ++ r :: C) RT L _). rewrite E, EB, <- app_assoc. reflexivity.
  - refine (program_order I p st o st' T _ _ (A ++ U pw UAsg true x :: B1) B2 C RT L _). rewrite E, EB, <- !app_assoc. reflexivity.
Qed.

(** [inverse] undoes sums and products of two terms. *)
Definition two_terms (g : expr) : Prop :=
  match g with EAdd [_; _] => True | EMul [a; b] => a <> EInt 0 /\ b <> EInt 0 | _ => False end.
Theorem C56_inverse : forall x g i (b : env) v, two_terms g -> inverse x g = Some i -> eval b g = Some v -> eval (upd b x v) i = Some (b x).
Proof.
  intros x g i b v TT H E. apply eval_ev in E. apply eval_ev. unfold inverse in H. destruct (negb (uses g x)); [discriminate|].
  assert (X : upd b x v x = v) by (unfold upd; rewrite String.eqb_refl; reflexivity).
  assert (SUM : forall k, b x + k = v -> ev (upd b x v) (ssub (ESym x) (EInt k)) = Fin (b x)).
  { intros k Q. rewrite ev_ssub. cbn -[Z.mul Z.add]. rewrite X. f_equal. lia. }
  assert (PRD : forall k j, k <> 0 -> b x * k = v -> sym_div (ESym x) (EInt k) = Some j -> ev (upd b x v) j = Fin (b x)).
  { intros k j NZ Q S1. rewrite (sym_div_ev (upd b x v) (ESym x) (EInt k) j v k S1); [|cbn; rewrite X; reflexivity|reflexivity|exact NZ].
    rewrite <- Q, Z.quot_mul by exact NZ. reflexivity. }
  destruct g as [| | | |l|l| | | | | | | | |]; try contradiction; (destruct l as [|p [|q [|z l]]]; try contradiction); destruct (expr_eqb p (ESym x)) eqn:E1; cbn [negb] in H.
  - rewrite E1 in H. cbn [negb] in H. apply expr_eqb_eq in E1 as ->. destruct q; try discriminate. inversion H; subst i. apply SUM. cbn in E. inversion E. lia.
  - destruct (expr_eqb q (ESym x)) eqn:E2; cbn [negb] in H; [|discriminate]. apply expr_eqb_eq in E2 as ->. destruct p; try discriminate. inversion H; subst i. apply SUM. cbn in E. inversion E. lia.
  - rewrite E1 in H. cbn [negb] in H. apply expr_eqb_eq in E1 as ->. destruct q; try discriminate. destruct TT as [_ NZ]. apply (PRD z); [congruence| |exact H]. cbn -[Z.mul] in E. inversion E. lia.
  - destruct (expr_eqb q (ESym x)) eqn:E2; cbn [negb] in H; [|discriminate]. apply expr_eqb_eq in E2 as ->. destruct p; try discriminate. destruct TT as [NZ _]. apply (PRD z); [congruence| |exact H]. cbn -[Z.mul] in E. inversion E. lia.
Qed.
(** The same read when one symbol of [rhs] was changed once in between, by [s = g]. *)
Theorem C56_modified_symbol_partial : forall I x rhs pd dom cov last p pw r s g i pm st o st',
  pd_graph p pd -> dom_graph p dom -> testS p = true -> regular x true p = true -> (u_el r = UUpd -> ncS p = true) ->
  u_w r = false -> u_x r = x -> only_def x pd dom cov last p (U pw UAsg true x) r -> ~ In x (atoms rhs) -> dom (U pw UAsg true x) r = true ->
  asgS (fun q y f => (q = pw -> y = x -> f = rhs) /\ (q = pm -> y = s -> f = g)) [] 0 p ->
  s <> x -> (forall y, In y (atoms g) -> y = s) -> two_terms g -> inverse s g = Some i ->
  (forall T, runsU I [] 0 p st o st' T -> forall A B C, T = A ++ U pw UAsg true x :: B ++ r :: C -> clear_of [x] B ->
     exists B1 B2, B = B1 ++ U pm UAsg true s :: B2 /\ clear_of (atoms rhs) (B1 ++ B2)) ->
  runs I p st o st' -> runs I (propagate x (subs rhs s i) r p) st o st'.
Proof.
  intros I x rhs pd dom cov last p pw r s g i pm st o st' G D TE REG NC RR RX ONE FR DOM ASG2 NE ON TT INV UN R.
  destruct (proj1 (proj2 (run_runU I)) _ _ _ _ R [] 0%nat) as (T & RT).
  refine (propagate_sim2 I x rhs pd dom cov last p pw r G D TE REG RR RX NC ONE DOM FR s g i pm ON (inverse_atoms s g i INV) NE _ ASG2 st o st' T RT (UN T RT)).
  intros b v. apply C56_inverse; assumption.
Qed.

(* ---------------------------------------------------------------- *)
(** * Examples *)
(** x = m; for (i = 0; i < 2; i = i + 1) { y = x; n = n + 1 } *)
Definition skip (a : assigns) (r : seq) : seq := SCons (NBlock []) a r.
Definition c56_loop (m : string) : seq :=
  skip [("x", ESym m)] (SCons (NLoop KFor "i" (EInt 0) (CLt (ESym "i") (EInt 2)) (EAdd [EInt 1; ESym "i"])
    (skip [("y", ESym "x")] (skip [("n", EAdd [EInt 1; ESym "n"])] SNil))) [] SNil).
Definition c56_w : user := U [Kid 0] UAsg true "x".
Definition c56_r : user := U [Kid 0; Body; Kid 1] UAsg false "x".
Definition c56_n : user := U [Kid 1; Body; Kid 1] UAsg true "n".
Definition c56_dom (u v : user) : bool := is_u u c56_w && (is_u v c56_r || is_u v c56_n) || is_u u c56_r && is_u v c56_n.
Definition never (u v : user) : bool := false.
Lemma never_graph p : pd_graph p never. Proof. intros u v H; discriminate. Qed.
Definition first_hit (T : utrace) : Prop := forall A B, T = A ++ c56_n :: B -> In c56_r A.
Lemma fh_pre X Y : ~ In c56_n X -> first_hit Y -> first_hit (X ++ Y).
Proof.
  intros N H A B E. apply split_app in E as [(Q1 & E & _)|(P2 & -> & E)]; [elim N; rewrite E; apply in_or_app; right; left; reflexivity|].
  apply in_or_app; right. apply (H P2 B E).
Qed.
Lemma fh_now T : first_hit (c56_r :: T).
Proof. intros [|a A] B E; inversion E. left; reflexivity. Qed.
Lemma fh_nil : first_hit []. Proof. intros A B E. destruct A; discriminate. Qed.
Lemma c56_dom_ok m : dom_graph (c56_loop m) c56_dom.
Proof.
  assert (BD : forall e T, wlkS [Body; Kid 1] 0 (skip [("y", ESym "x")] (skip [("n", EAdd [EInt 1; ESym "n"])] SNil)) e T -> exists T', T = c56_r :: T').
  { intros e T H. inversion H as [|? ? ? ? ? ? T0 R0 N0 H0|? ? ? ? ? ? N0|]; subst; [|inversion N0]. inversion N0; subst. eexists. reflexivity. }
  assert (L : forall e T, wlkL [Kid 1] "i" (CLt (ESym "i") (EInt 2)) (EAdd [EInt 1; ESym "i"]) (skip [("y", ESym "x")] (skip [("n", EAdd [EInt 1; ESym "n"])] SNil)) e T \/
                          wlkT [Kid 1] "i" (CLt (ESym "i") (EInt 2)) (EAdd [EInt 1; ESym "i"]) (skip [("y", ESym "x")] (skip [("n", EAdd [EInt 1; ESym "n"])] SNil)) e T -> first_hit T).
  { assert (K : (forall p n e T, wlkN p n e T -> True) /\ (forall q k s e T, wlkS q k s e T -> True) /\ (forall p s e T, wlkW p s e T -> True) /\
      (forall p i c u s e T, wlkT p i c u s e T -> p = [Kid 1] -> i = "i" -> c = CLt (ESym "i") (EInt 2) -> s = skip [("y", ESym "x")] (skip [("n", EAdd [EInt 1; ESym "n"])] SNil) -> first_hit T) /\
      (forall p i c u s e T, wlkL p i c u s e T -> p = [Kid 1] -> i = "i" -> c = CLt (ESym "i") (EInt 2) -> s = skip [("y", ESym "x")] (skip [("n", EAdd [EInt 1; ESym "n"])] SNil) -> first_hit T)).
    { apply wlk_mind; try (intros; exact Logic.I).
      - intros; apply fh_nil.
      - intros p i c u s e T _ IH -> -> -> ->. apply (fh_pre [turn [Kid 1] "i" (CLt (ESym "i") (EInt 2))]); [intros [Q|[]]; discriminate|auto].
      - intros p i c u s e T _ _ IH. exact IH.
      - intros p i c u s e T1 T2 W _ _ _ -> -> -> ->. destruct (BD _ _ W) as (T' & ->). apply fh_now.
      - intros p i c u s T W _ -> -> -> ->. destruct (BD _ _ W) as (T' & ->). apply fh_now. }
    destruct K as (_ & _ & _ & K1 & K2). intros e T [H|H]; [eapply K2|eapply K1]; eauto. }
  intros u v H A B (e & W). inversion W as [|? ? ? ? ? ? T0 R0 N0 H0|? ? ? ? ? ? N0|]; subst; [|inversion N0]. inversion N0; subst. cbn [blkU app asgW asg_reads map concat fst snd atoms rdU] in *.
  assert (PRE : v = c56_r \/ v = c56_n -> exists A', A = U [Kid 0] UAsg false m :: c56_w :: A' /\ R0 = A' ++ v :: B).
  { intros Q. match goal with E : _ = A ++ v :: B |- _ => rename E into E0 end.
    destruct A as [|a A]; cbn [app] in E0; [inversion E0; destruct Q; subst v; discriminate|]. inversion E0 as [[E1 E2]]. destruct A as [|a' A]; cbn [app] in E2; [inversion E2; destruct Q; subst v; discriminate|].
    inversion E2 as [[E3 E4]]. exists A. split; [reflexivity|]. reflexivity. }
  unfold c56_dom in H. apply orb_true_iff in H as [H|H]; apply andb_true_iff in H as [H1 H2]; apply is_u_eq in H1; subst u.
  - destruct PRE as (A' & -> & _); [apply orb_true_iff in H2 as [H2|H2]; apply is_u_eq in H2; auto|]. right; left; reflexivity.
  - apply is_u_eq in H2. subst v. destruct PRE as (A' & -> & E); [auto|]. right; right.
    assert (F : first_hit R0); [|exact (F A' B E)].
    assert (LOOP : forall e T, wlkN [Kid 1] (NLoop KFor "i" (EInt 0) (CLt (ESym "i") (EInt 2)) (EAdd [EInt 1; ESym "i"]) (skip [("y", ESym "x")] (skip [("n", EAdd [EInt 1; ESym "n"])] SNil))) e T -> first_hit T).
    { intros e' T Q. inversion Q as [| | | | |? ? ? ? ? ? ? l1 l2 ? T' EC NE Q1|? ? ? ? ? ? ? ? T' Q1| | |]; subst.
      - apply fh_pre; [intros []|]. apply (fh_pre [_]); [intros [X|[]]; discriminate|]. apply fh_pre; [intros X; apply in_map_iff in X as (z & X & _); discriminate|]. eapply L; right; exact Q1.
      - apply fh_pre; [intros []|]. apply (fh_pre [_]); [intros [X|[]]; discriminate|]. apply fh_pre; [intros X; apply in_map_iff in X as (z & X & _); discriminate|]. eapply L; left; exact Q1. }
    match goal with Q : wlkS _ _ (SCons _ [] SNil) _ R0 |- _ => inversion Q as [|? ? ? ? ? ? T1 T2 N1 S1|? ? ? ? ? ? N1|]; subst end; [|eapply LOOP; exact N1].
    inversion S1; subst. cbn [asgW asg_reads map concat rdU app]. rewrite app_nil_r. eapply LOOP; exact N1.
Qed.
Lemma c56_one m dom cov last : m = "m" \/ m = "n" -> only_def "x" never dom cov last (c56_loop m) c56_w c56_r.
Proof.
  intros H w' (d & Hd & E1 & E2). destruct H as [-> | ->]; vm_compute in Hd; repeat (destruct Hd as [<-|Hd]; [subst w'; cbn [d_r] in E2; repeat (destruct E2 as [E2|E2]; [try discriminate E2; reflexivity|]); try destruct E2|]); destruct Hd.
Qed.
Lemma c56_may m : m = "m" \/ m = "n" -> forall cov last, may_propagate "x" (ESym m) never c56_dom cov last (c56_loop m) [Kid 0] c56_r.
Proof.
  intros H cov last. split; [reflexivity|]. split; [reflexivity|]. split; [apply c56_one; exact H|]. split.
  - cbn. split; [exact Logic.I|]. split; [intros y f [Q|[]] _ _; inversion Q; reflexivity|]. split; [|split; [intros y f []|exact Logic.I]].
    split; [exact Logic.I|]. split; [intros y f [Q|[]] P; discriminate P|]. split; [exact Logic.I|]. split; [intros y f [Q|[]] P; discriminate P|exact Logic.I].
  - split; [intros [Q|[]]; destruct H; subst m; discriminate|]. split; [reflexivity|]. intros u W _. unfold dangerous. destruct (c56_dom (U [Kid 0] UAsg true "x") u) eqn:E; [|rewrite andb_false_r; reflexivity].
    assert (Q : u = c56_r \/ u = c56_n).
    { unfold c56_dom in E. change (U [Kid 0] UAsg true "x") with c56_w in E. apply orb_true_iff in E as [E|E]; apply andb_true_iff in E as [E1 E2]; [|vm_compute in E1; discriminate].
      apply orb_true_iff in E2 as [E2|E2]; apply is_u_eq in E2; auto. }
    destruct Q as [-> | ->]; [discriminate|]. reflexivity.
Qed.
Theorem C56_hypotheses : pd_graph (c56_loop "m") never /\ dom_graph (c56_loop "m") c56_dom /\ testS (c56_loop "m") = true /\ regular "x" true (c56_loop "m") = true /\
  (forall cov last, may_propagate "x" (ESym "m") never c56_dom cov last (c56_loop "m") [Kid 0] c56_r) /\
  (forall u, In u (allwS [] 0 (c56_loop "m")) -> In (u_x u) ["m"] -> later u c56_w \/ later c56_r u) /\
  propagate "x" (ESym "m") c56_r (c56_loop "m") <> c56_loop "m" /\
  exists st', runs I0 (c56_loop "m") st0 ONorm st'.
Proof.
  split; [apply never_graph|]. split; [apply c56_dom_ok|]. split; [reflexivity|]. split; [reflexivity|]. split; [intros; apply c56_may; auto|]. split.
  - intros u Hu Hx. exfalso. vm_compute in Hu. repeat (destruct Hu as [<-|Hu]; [destruct Hx as [Hx|[]]; discriminate|]). destruct Hu.
  - split; [vm_compute; discriminate|]. eexists. apply (xseq_runs I0 40). vm_compute. reflexivity.
Qed.
(** Program order: n = 1; x = n; y = x; n = 2. *)
Definition c56_line : seq := skip [("n", EInt 1)] (skip [("x", ESym "n")] (skip [("y", ESym "x")] (skip [("n", EInt 2)] SNil))).
Theorem C56_program_order_hypotheses : forall u, In u (allwS [] 0 c56_line) -> In (u_x u) ["n"] -> later u (U [Kid 1] UAsg true "x") \/ later (U [Kid 2] UAsg false "x") u.
Proof.
  intros u Hu Hx. vm_compute in Hu. destruct Hu as [<-|[<-|[<-|[<-|[]]]]].
  - left. exists [], [], [], 0%nat, 1%nat. repeat split; lia.
  - destruct Hx as [Hx|[]]; discriminate.
  - destruct Hx as [Hx|[]]; discriminate.
  - right. exists [], [], [], 2%nat, 3%nat. repeat split; lia.
Qed.

(** ** Where the pass's own criteria are not enough *)
(** A write dominated by the read is taken to come after it; in a loop it also comes
    before it: x = n; for (...) { y = x; n = n + 1 } becomes ... { y = n; n = n + 1 }. *)
Theorem C56_loop_refuted : dom_graph (c56_loop "n") c56_dom /\ regular "x" true (c56_loop "n") = true /\
  (forall cov last, may_propagate "x" (ESym "n") never c56_dom cov last (c56_loop "n") [Kid 0] c56_r) /\
  ~ preserved_except (fun _ => False) (c56_loop "n") (propagate "x" (ESym "n") c56_r (c56_loop "n")).
Proof.
  split; [apply c56_dom_ok|]. split; [reflexivity|]. split; [intros; apply c56_may; auto|].
  apply (refute_differ 40 _ _ _ st0 "y" []); [vm_compute; reflexivity|auto].
Qed.
(** A transition that assigns a symbol of the right-hand side before it reads:
    x = n; then one transition {n = 5; y = x} becomes {n = 5; y = n}.  The users
    graph has all reads of a transition before its writes. *)
Definition c56_trans : seq := skip [("x", ESym "n")] (skip [("n", EInt 5); ("y", ESym "x")] SNil).
Definition c56_tr : user := U [Kid 1] UAsg false "x".
Definition c56_tn : user := U [Kid 1] UAsg true "n".
Definition c56_tdom (u v : user) : bool := is_u u c56_w && (is_u v c56_tr || is_u v c56_tn) || is_u u c56_tr && is_u v c56_tn.
Lemma c56_tdom_ok : dom_graph c56_trans c56_tdom.
Proof.
  intros u v H A B (e & W). inversion W as [|? ? ? ? ? ? T0 R0 N0 H0|? ? ? ? ? ? N0|]; subst; [|inversion N0]. inversion N0; subst.
  inversion H0 as [|? ? ? ? ? ? T1 R1 N1 H1|? ? ? ? ? ? N1|]; subst; [|inversion N1]. inversion N1; subst. inversion H1; subst.
  match goal with E : _ = A ++ v :: B |- _ => cbn in E; rename E into E0 end.
  assert (Q : (u = c56_w /\ (v = c56_tr \/ v = c56_tn)) \/ (u = c56_tr /\ v = c56_tn)).
  { unfold c56_tdom in H. apply orb_true_iff in H as [H|H]; apply andb_true_iff in H as [Q1 Q2]; apply is_u_eq in Q1; [left|right; apply is_u_eq in Q2; auto].
    apply orb_true_iff in Q2 as [Q2|Q2]; apply is_u_eq in Q2; auto. }
  destruct A as [|a1 A]; cbn [app] in E0; inversion E0; subst; [destruct Q as [(-> & [Q|Q])|(-> & Q)]; discriminate|].
  match goal with E : _ = A ++ v :: B |- _ => clear E0; rename E into E0 end. destruct A as [|a2 A]; cbn [app] in E0; inversion E0; subst; [destruct Q as [(-> & [Q|Q])|(-> & Q)]; discriminate|].
  match goal with E : _ = A ++ v :: B |- _ => clear E0; rename E into E0 end.
  destruct Q as [(-> & _)|(-> & ->)]; [right; left; reflexivity|].
  destruct A as [|a3 A]; cbn [app] in E0; inversion E0; subst. right; right; left; reflexivity.
Qed.
Theorem C56_transition_refuted : dom_graph c56_trans c56_tdom /\ regular "x" true c56_trans = true /\
  (forall cov last, may_propagate "x" (ESym "n") never c56_tdom cov last c56_trans [Kid 0] c56_tr) /\
  ~ preserved_except (fun _ => False) c56_trans (propagate "x" (ESym "n") c56_tr c56_trans).
Proof.
  split; [apply c56_tdom_ok|]. split; [reflexivity|]. split.
  - intros cov last. split; [reflexivity|]. split; [reflexivity|]. split.
    + intros w' (d & Hd & E1 & E2). vm_compute in Hd; repeat (destruct Hd as [<-|Hd]; [subst w'; cbn [d_r] in E2; repeat (destruct E2 as [E2|E2]; [try discriminate E2; reflexivity|]); try destruct E2|]); destruct Hd.
    + split; [cbn; split; [exact Logic.I|]; split; [intros y f [Q|[]] _ _; inversion Q; reflexivity|]; split; [exact Logic.I|]; split; [intros y f [Q|[Q|[]]] P; discriminate P|exact Logic.I]|].
      split; [intros [Q|[]]; discriminate|]. split; [reflexivity|]. intros u W _. unfold dangerous. destruct (c56_tdom (U [Kid 0] UAsg true "x") u) eqn:E; [|rewrite andb_false_r; reflexivity].
      assert (Q : u = c56_tr \/ u = c56_tn).
      { unfold c56_tdom in E. change (U [Kid 0] UAsg true "x") with c56_w in E. apply orb_true_iff in E as [E|E]; apply andb_true_iff in E as [E1 E2]; [|vm_compute in E1; discriminate].
        apply orb_true_iff in E2 as [E2|E2]; apply is_u_eq in E2; auto. }
      destruct Q as [-> | ->]; [discriminate|]. reflexivity.
  - apply (refute_differ 40 _ _ _ st0 "y" []); [vm_compute; reflexivity|auto].
Qed.
(** [inverse] looks at the first two terms only: x = n; n = 3 + n + n / 2; y = x becomes y = n - 3. *)
Definition c56_three : expr := EAdd [EInt 3; ESym "n"; EIdiv (ESym "n") (EInt 2)].
Theorem C56_inverse_refuted : exists i, inverse "n" c56_three = Some i /\
  (forall y, In y (atoms c56_three) -> y = "n") /\
  let p := skip [("x", ESym "n")] (skip [("n", c56_three)] (skip [("y", ESym "x")] SNil)) in
  ~ preserved_except (fun _ => False) p (propagate "x" (subs (ESym "n") "n" i) (U [Kid 2] UAsg false "x") p).
Proof.
  eexists. split; [reflexivity|]. split; [intros y [<-|[<-|[]]]; reflexivity|].
  apply (refute_differ 40 _ _ _ (fun _ _ => 10) "y" []); [vm_compute; reflexivity|auto].
Qed.
Lemma uniq_split {A} (P Q P' Q' : list A) v : P ++ v :: Q = P' ++ v :: Q' -> ~ In v P -> ~ In v Q -> P' = P /\ Q' = Q.
Proof.
  intros E N1 N2. symmetry in E. apply split_app in E as [(Q1 & E & EB)|(P2 & E & EB)].
  - elim N2. rewrite EB. apply in_or_app; right; left; reflexivity.
  - destruct P2 as [|z P2]; cbn [app] in EB; inversion EB; subst; [rewrite app_nil_r; auto|]. elim N1. apply in_or_app; right; left; reflexivity.
Qed.
(** a case [C56_modified_symbol_partial] covers: n = n + 1 between the two *)
Theorem C56_modified_hypotheses : exists i, inverse "n" (EAdd [EInt 1; ESym "n"]) = Some i /\ two_terms (EAdd [EInt 1; ESym "n"]) /\
  let p := skip [("x", ESym "n")] (skip [("n", EAdd [EInt 1; ESym "n"])] (skip [("y", ESym "x")] SNil)) in
  regular "x" true p = true /\ testS p = true /\
  propagate "x" (subs (ESym "n") "n" i) (U [Kid 2] UAsg false "x") p = skip [("x", ESym "n")] (skip [("n", EAdd [EInt 1; ESym "n"])] (skip [("y", i)] SNil)) /\
  forall T st o st', runsU I0 [] 0 p st o st' T -> forall A B C, T = A ++ U [Kid 0] UAsg true "x" :: B ++ U [Kid 2] UAsg false "x" :: C -> clear_of ["x"] B ->
    exists B1 B2, B = B1 ++ U [Kid 1] UAsg true "n" :: B2 /\ clear_of ["n"] (B1 ++ B2).
Proof.
  eexists. split; [reflexivity|]. split; [exact Logic.I|]. split; [reflexivity|]. split; [reflexivity|]. split; [reflexivity|].
  intros T st o st' R A B C E _.
  inversion R as [|? ? ? ? ? ? ? ? ? ? T1 T2 R1 A1 R2|]; subst; [|match goal with H : runU _ _ (NBlock _) _ _ _ _ |- _ => inversion H; subst; contradiction end]. inversion R1; subst.
  inversion R2 as [|? ? ? ? ? ? ? ? ? ? T3 T4 R3 A3 R4|]; subst; [|match goal with H : runU _ _ (NBlock _) _ _ _ _ |- _ => inversion H; subst; contradiction end]. inversion R3; subst.
  inversion R4 as [|? ? ? ? ? ? ? ? ? ? T5 T6 R5 A5 R6|]; subst; [|match goal with H : runU _ _ (NBlock _) _ _ _ _ |- _ => inversion H; subst; contradiction end]. inversion R5; subst. inversion R6; subst.
  match goal with E : _ = A ++ _ |- _ => cbn in E; rename E into E0 end.
  clear - E0. assert (EB : B = [U [Kid 1] UAsg false "n"; U [Kid 1] UAsg true "n"]).
  { apply (uniq_split [_]) in E0 as [_ E0]; [|vm_compute; intuition discriminate|vm_compute; intuition discriminate].
    symmetry in E0. apply (uniq_split [_; _]) in E0 as [E0 _]; [auto|vm_compute; intuition discriminate|vm_compute; intuition discriminate]. }
  subst B. exists [U [Kid 1] UAsg false "n"], []. split; [reflexivity|]. intros u [<-|[]] [Q _]; discriminate.
Qed.
