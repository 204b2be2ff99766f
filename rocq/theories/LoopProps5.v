(** Properties of LoopSkewing (C18). *)
From Verif Require Import Sym SymFacts SymFuns SymProofs1 IR IRFacts IRRefine PassCFG PassInline PassCFGProofs2 PassCFGProps LoopProps TypesProofs Subst Skew.
Local Open Scope string_scope.
Local Open Scope Z_scope.

(* ======================= C18 ======================= *)
Definition nest (k : kind) (i : string) (init : expr) (c : cond) (u : expr) (j : string) (init2 : expr) (c2 : cond) (u2 : expr) (body : seq) : node :=
  NLoop k i init c u (one (NLoop KMap j init2 c2 u2 body)).
Definition same_but (j : string) (p q : seq) : Prop :=
  forall I st o st', runs I p st o st' -> exists st'', runs I q st o st'' /\ forall x idx, x <> j -> st'' x idx = st' x idx.
(** Whatever is accepted: everything but the inner loop variable ends up the same. *)
Definition C18_full : Prop := forall f k i init c u j init2 c2 u2 body n',
  skew f (nest k i init c u j init2 c2 u2 body) = Some n' -> i <> j ->
  same_but j (one (nest k i init c u j init2 c2 u2 body)) (one n').

(** The loop variable is only advanced by an amount that does not depend on it. *)
Definition translation (j : string) (u : expr) : Prop :=
  forall s v w d, eval (upd s j v) u = Some w -> eval (upd s j (v + d)) u = Some (w + d).
(** Proved when the inner update is a translation, the inner variable is used in
    subsets, bounds, conditions and right-hand sides only (no access node reads
    it, [sdata]), the headers do not use it, and the body writes neither the loop
    variables nor the symbols of the outer initial value. *)
Theorem C18_skewing_partial : forall f k i init c u j init2 c2 u2 body n',
  skew f (nest k i init c u j init2 c2 u2 body) = Some n' -> i <> j ->
  translation j u2 -> ~ In j (sdata body) ->
  ~ In j (catoms c) -> ~ In j (atoms u) -> ~ In j (atoms init2) ->
  (forall x, In x (atoms init) -> x <> i /\ x <> j) ->
  (forall x, In x (swrites body) -> x <> i /\ x <> j /\ ~ In x (atoms init)) ->
  same_but j (one (nest k i init c u j init2 c2 u2 body)) (one n').
Proof.
  intros f k i init c u j init2 c2 u2 body n' E N U D Hc Hu Hi2 Hi Hb. unfold nest, one in *. cbn [skew] in E.
  destruct (_ || _); [discriminate|]. injection E as <-. intros I st o st' R.
  assert (G: forall o1 st1, run I (NLoop k i init c u (SCons (NLoop KMap j init2 c2 u2 body) [] SNil)) st o1 st1 ->
    exists b, run I (NLoop k i init c u (SCons (NLoop KMap j (sadd init2 (skew_offset f i init)) (csubs c2 j (ssub (ESym j) (skew_offset f i init))) u2
        (repl_seq j (ssub (ESym j) (skew_offset f i init)) body)) [] SNil)) st o1 b /\ forall x q, x <> j -> b x q = st1 x q).
  { intros o1 st1 R1. eapply skew_run; eauto.
    - intros x Hx. destruct (Hi x Hx) as [A1 A2]. repeat split; auto. intros Q. apply (Hb x Q). exact Hx.
    - split; intros Q; apply Hb in Q; tauto. }
  inversion R; subst.
  - match goal with H : runs _ SNil _ _ _ |- _ => inversion H; subst end. match goal with H : exec_assigns _ _ = _ |- _ => injection H as <- end.
    destruct (G ONorm st1) as (b & Rb & S); auto. exists b. split; auto. eapply R_cons; [exact Rb|reflexivity|apply R_nil].
  - destruct (G o st') as (b & Rb & S); auto. exists b. split; auto. apply R_exit; auto.
Qed.
Lemma refute_same fuel j p q st x idx : differ fuel p q st x idx = true -> x <> j -> ~ same_but j p q.
Proof.
  unfold differ. destruct (xseq I0 fuel p st) as [[o1 s1]|] eqn:E1; [|discriminate].
  destruct (xseq I0 fuel q st) as [[o2 s2]|] eqn:E2; [|discriminate]. intros H N F. apply negb_true_iff, Z.eqb_neq in H.
  apply xseq_runs in E1, E2. destruct (F _ _ _ _ E1) as (st'' & R & Q). destruct (runs_det _ _ _ _ _ _ _ E2 R) as (_ & ->). apply H. symmetry. apply Q. exact N.
Qed.

(** A constant advance is a translation. *)
Lemma nxt_translation j : translation j (nxt j).
Proof. intros s v w d. unfold nxt, eval, upd. cbn [ev fold_right map xsum xadd]. rewrite String.eqb_refl. intros H. assert (E: 1 + (v + 0) = w) by congruence. apply f_equal. lia. Qed.

Definition skewed_wrong (f : Z) (n : node) (st : store) (x : string) (idx : list Z) : Prop :=
  exists n', skew f n = Some n' /\ x <> "j" /\ differ 60 (one n) (one n') st x idx = true.
Ltac swrong := eexists; split; [vm_compute; reflexivity|split; [discriminate|vm_compute; reflexivity]].
(** An access node that reads the inner variable: A[j] = j stores the shifted value. *)
Definition lt5 (x : string) : cond := CLt (ESym x) (EInt 5).
Theorem C18_access_refuted : skewed_wrong 1 (nest KFor "i" (EInt 0) (lt5 "i") (nxt "i") "j" (EInt 0) (lt5 "j") (nxt "j") (one (acc "A" "j"))) st0 "A" [2].
Proof. swrong. Qed.
(** j = 2*j: the update is kept although the variable is shifted. *)
Definition put (x y : string) : node := NBlock [{| o_code := 0; o_ins := [OConst 7]; o_out := x; o_sub := [ESym y] |}].
Theorem C18_update_refuted : skewed_wrong 1 (nest KFor "i" (EInt 0) (lt5 "i") (nxt "i") "j" (EInt 1) (lt5 "j") (EMul [EInt 2; ESym "j"]) (one (put "A" "j"))) st0 "A" [3].
Proof. swrong. Qed.
(** The body changes the symbol the outer loop starts at. *)
Theorem C18_init_refuted : skewed_wrong 1 (nest KFor "i" (ESym "s") (lt5 "i") (nxt "i") "j" (EInt 0) (lt5 "j") (nxt "j")
  (SCons (put "A" "j") [("s", EAdd [EInt 3; ESym "s"])] SNil)) st0 "A" [3].
Proof. swrong. Qed.
(** The inner variable itself ends at a different value. *)
Definition skew_ok : node := nest KFor "i" (ESym "a") (lt5 "i") (nxt "i") "j" (ESym "a") (CLt (ESym "j") (ESym "n")) (nxt "j")
  (SCons (NBlock [{| o_code := 0; o_ins := [ORead "B" [ESym "j"]]; o_out := "A"; o_sub := [EAdd [ESym "i"; ESym "j"]] |}]) [("k", EAdd [ESym "j"; ESym "k"])] SNil).
Theorem C18_final_index_refuted : exists n', skew 2 skew_ok = Some n' /\ differ 60 (one skew_ok) (one n') (wr st0 "n" [] 3) "j" [] = true.
Proof. eexists; split; [vm_compute; reflexivity|vm_compute; reflexivity]. Qed.
Theorem C18_full_refuted : ~ C18_full.
Proof. intros F. destruct C18_access_refuted as (n' & E & N & H). eapply refute_same; [exact H|exact N|]. eapply F; [exact E|discriminate]. Qed.

(** Every hypothesis of C18_skewing_partial holds for [skew_ok], and both loops run. *)
Example C18_nonvacuous : translation "j" (nxt "j") /\ (exists n', skew 2 skew_ok = Some n') /\
  (exists st', runs I0 (one skew_ok) (wr st0 "n" [] 3) ONorm st' /\ st' "k" [] = 15) /\
  ~ In "j" (sdata (SCons (NBlock [{| o_code := 0; o_ins := [ORead "B" [ESym "j"]]; o_out := "A"; o_sub := [EAdd [ESym "i"; ESym "j"]] |}]) [("k", EAdd [ESym "j"; ESym "k"])] SNil)).
Proof.
  split; [apply nxt_translation|]. split; [eexists; vm_compute; reflexivity|]. split; [|cbn; intuition discriminate].
  destruct (xseq I0 60 (one skew_ok) (wr st0 "n" [] 3)) as [[o s]|] eqn:E; [|vm_compute in E; discriminate]. exists s.
  assert (o = ONorm) as -> by (vm_compute in E; congruence). split; [eapply xseq_runs; eauto|]. vm_compute in E. injection E as <-. reflexivity.
Qed.

Print Assumptions C18_skewing_partial.
Print Assumptions C18_full_refuted.
Print Assumptions C18_update_refuted.
Print Assumptions C18_init_refuted.
Print Assumptions C18_final_index_refuted.
