(** Counting floating-point operations.

    Modelled: sdfg/src/analysis/flop_analysis.cpp: is_parameter_expression (35-45),
    get_scope_parameters (106-144), visit_sequence (169-196), visit_block (198-231) without
    library nodes, visit_structured_loop (233-248), visit_structured_loop_with_scope
    (250-350) with the tight bounds only, visit_if_else, visit_while (352-397). The model
    returns the expression where the code returns one and leaves precise_ set; [None]: the
    code returns null or clears precise_. The tight bounds are those of
    assumptions_analysis.cpp:230-273 for the loop itself. *)
From Coq Require Import String List ZArith Bool Lia.
From Verif Require Import Sym SymFacts SymFuns IR IRFacts Assum TypesProofs.
Import ListNotations.
Open Scope string_scope.
Open Scope list_scope.
Open Scope Z_scope.

Definition mem (x : string) (l : list string) : bool := existsb (String.eqb x) l.
(** assumptions_analysis.cpp:230-273: the tight bounds a loop gives its index *)
Definition tight_bounds (T : assumptions) (i : string) (init : expr) (c : cond) (u : expr) : option (expr * expr) :=
  if series_is_monotonic u i T then
    match cnf c with
    | Some N => match cnf_upper N i with Some ub => if is_contiguous u i T then Some (init, ub) else None | None => None end
    | None => None
    end
  else None.

Section Flops.
  Variables (w : op -> Z) (T : list string -> assumptions).
  (** 201-208: two for a fused multiply-add, one for the other floating-point tasklets *)
  Definition block_flops (b : block) : Z := fold_right Z.add 0 (map w b).
  (** 106-144 and 35-45: used in the scope and not written there *)
  Definition is_param (rs ws : list string) (e : expr) : bool := forallb (fun x => mem x (rs ++ ws) && negb (mem x ws)) (atoms e).
  (** 84: an index of an enclosing loop is replaced, which clears precise_ *)
  Definition no_index (ctx : list string) (e : expr) : bool := forallb (fun x => negb (mem x ctx)) (atoms e).
  (** 250-350 where precise_ stays: both tight bounds, of parameters only *)
  Definition loop_flops (ctx rs ws : list string) (i : string) (init : expr) (c : cond) (u : expr) (child : expr) : option expr :=
    match tight_bounds (T ctx) i init c u with
    | Some (lo, hi) =>
        if no_index (i :: ctx) lo && no_index (i :: ctx) hi && is_param rs ws lo && is_param rs ws hi
        then Some (smul (sadd (ssub hi lo) (EInt 1)) child) else None
    | None => None
    end.
  (** [rs], [ws]: what the scope around the node reads and writes *)
  Fixpoint flopN (ctx rs ws : list string) (n : node) : option expr :=
    match n with
    | NBlock b => Some (EInt (block_flops b))
    | NSeq s => flopS ctx (sreads s) (swrites s) (EInt 0) s
    | NIf BNil => Some (EInt 0)
    | NIf _ | NWhile _ => None
    | NBreak | NContinue | NReturn _ => Some (EInt 0)
    | NLoop _ i init c u s =>
        match flopS (i :: ctx) (sreads s) (swrites s) (EInt 0) s with
        | Some child => loop_flops ctx rs ws i init c u child
        | None => None
        end
    end
  with flopS (ctx rs ws : list string) (acc : expr) (s : seq) : option expr :=
    match s with
    | SNil => Some acc
    | SCons n _ r => match flopN ctx rs ws n with Some e => flopS ctx rs ws (sadd acc e) r | None => None end
    end.
  (** run: the root *)
  Definition flop_root (s : seq) : option expr := flopS [] (sreads s) (swrites s) (EInt 0) s.
  (** 245: the expression recorded for a loop, whose scope is the loop itself *)
  Definition flop_loop (ctx : list string) (n : node) : option expr := flopN ctx (nreads n) (nwrites n) n.
End Flops.

(** ** The operations an execution performs: [run] of IR.v with a counter *)
Section Cost.
  Variables (w : op -> Z) (I : nat -> list Z -> option Z).
  Inductive costN : node -> store -> outcome -> store -> Z -> Prop :=
  | K_block b st st' : exec_block I st b = Some st' -> costN (NBlock b) st ONorm st' (block_flops w b)
  | K_seq s st o st' z : costS s st o st' z -> costN (NSeq s) st o st' z
  | K_if bs st o st' z : costB bs st o st' z -> costN (NIf bs) st o st' z
  | K_while s st o st' z : costW s st o st' z -> costN (NWhile s) st o st' z
  | K_loop k i init c u s st v o st' z : eval (env_of st) init = Some v -> costL i c u s (wr st i [] v) o st' z -> costN (NLoop k i init c u s) st o st' z
  | K_break st : costN NBreak st OBrk st 0
  | K_continue st : costN NContinue st OCont st 0
  | K_return r st : costN (NReturn r) st (ORet r) st 0
  with costS : seq -> store -> outcome -> store -> Z -> Prop :=
  | K_nil st : costS SNil st ONorm st 0
  | K_cons n a r st st1 st2 o st' z1 z2 : costN n st ONorm st1 z1 -> exec_assigns st1 a = Some st2 -> costS r st2 o st' z2 -> costS (SCons n a r) st o st' (z1 + z2)
  | K_exit n a r st o st' z : costN n st o st' z -> o <> ONorm -> costS (SCons n a r) st o st' z
  with costB : brs -> store -> outcome -> store -> Z -> Prop :=
  | K_bnil st : costB BNil st ONorm st 0
  | K_btrue c s r st o st' z : cev (env_of st) c = Some true -> costS s st o st' z -> costB (BCons c s r) st o st' z
  | K_bfalse c s r st o st' z : cev (env_of st) c = Some false -> costB r st o st' z -> costB (BCons c s r) st o st' z
  with costW : seq -> store -> outcome -> store -> Z -> Prop :=
  | K_wnext s st o1 st1 o st' z1 z2 : costS s st o1 st1 z1 -> o1 = ONorm \/ o1 = OCont -> costW s st1 o st' z2 -> costW s st o st' (z1 + z2)
  | K_wbreak s st st' z : costS s st OBrk st' z -> costW s st ONorm st' z
  | K_wret s st r st' z : costS s st (ORet r) st' z -> costW s st (ORet r) st' z
  with costL : string -> cond -> expr -> seq -> store -> outcome -> store -> Z -> Prop :=
  | K_lend i c u s st : cev (env_of st) c = Some false -> costL i c u s st ONorm st 0
  | K_lnext i c u s st o1 st1 v o st' z1 z2 : cev (env_of st) c = Some true -> costS s st o1 st1 z1 -> o1 = ONorm \/ o1 = OCont ->
      eval (env_of st1) u = Some v -> costL i c u s (wr st1 i [] v) o st' z2 -> costL i c u s st o st' (z1 + z2)
  | K_lbreak i c u s st st' z : cev (env_of st) c = Some true -> costS s st OBrk st' z -> costL i c u s st ONorm st' z
  | K_lret i c u s st r st' z : cev (env_of st) c = Some true -> costS s st (ORet r) st' z -> costL i c u s st (ORet r) st' z.
  Scheme costN_m := Minimality for costN Sort Prop with costS_m := Minimality for costS Sort Prop with costB_m := Minimality for costB Sort Prop
    with costW_m := Minimality for costW Sort Prop with costL_m := Minimality for costL Sort Prop.
  Combined Scheme cost_mind from costN_m, costS_m, costB_m, costW_m, costL_m.
  Lemma cost_run :
    (forall n st o st' z, costN n st o st' z -> run I n st o st') /\ (forall n st o st' z, costS n st o st' z -> runs I n st o st') /\
    (forall n st o st' z, costB n st o st' z -> runb I n st o st') /\ (forall n st o st' z, costW n st o st' z -> runw I n st o st') /\
    (forall i c u n st o st' z, costL i c u n st o st' z -> runl I i c u n st o st').
  Proof. apply cost_mind; intros; econstructor; eassumption. Qed.
  Lemma run_cost :
    (forall n st o st', run I n st o st' -> exists z, costN n st o st' z) /\ (forall n st o st', runs I n st o st' -> exists z, costS n st o st' z) /\
    (forall n st o st', runb I n st o st' -> exists z, costB n st o st' z) /\ (forall n st o st', runw I n st o st' -> exists z, costW n st o st' z) /\
    (forall i c u n st o st', runl I i c u n st o st' -> exists z, costL i c u n st o st' z).
  Proof.
    apply run_mind; intros; repeat match goal with H : exists _, _ |- _ => destruct H as [? H] end; eexists; econstructor; eassumption.
  Qed.
End Cost.

(** ** Where the count is exact *)
Section Exact.
  Variables (w : op -> Z) (I : nat -> list Z -> option Z) (T : list string -> assumptions).
  (** No early exit; every loop counts up by one to one bound, [W] holds nothing its bounds
      depend on, its body does not write its index and it never starts past its end. *)
  Fixpoint plainN (W : list string) (st : store) (n : node) : Prop :=
    match n with
    | NBlock _ | NIf _ | NWhile _ => True
    | NSeq s => plainS W st s
    | NBreak | NContinue | NReturn _ => False
    | NLoop _ i init c u s =>
        (exists e lo hi, (c = CLt (ESym i) e /\ eval (env_of st) e = Some (hi + 1) \/ c = CLe (ESym i) e /\ eval (env_of st) e = Some hi) /\
           eval (env_of st) init = Some lo /\ lo <= hi + 1 /\ forall x, In x (atoms init ++ atoms e) -> ~ In x W) /\
        (forall s v, eval s u = Some v -> v = s i + 1) /\ ~ In i (swrites s) /\ In i W /\ plainS W st s
    end
  with plainS (W : list string) (st : store) (s : seq) : Prop := match s with SNil => True | SCons n _ r => plainN W st n /\ plainS W st r end.
  Definition same_off (W : list string) (a b : store) : Prop := forall x, ~ In x W -> a x [] = b x [].
  Definition incl_w (l W : list string) : Prop := forall x, In x l -> In x W.
  Lemma eval_off W a b e : same_off W a b -> (forall x, In x (atoms e) -> ~ In x W) -> eval (env_of a) e = eval (env_of b) e.
  Proof. intros S H. unfold eval. rewrite (ev_agree (env_of a) (env_of b)); [reflexivity|]. intros x Hx. apply S, H, Hx. Qed.
  Lemma off_run W a b n o b' : same_off W a b -> run I n b o b' -> incl_w (nwrites n) W -> same_off W a b'.
  Proof. intros S R H x Hx. rewrite (S x Hx). symmetry. eapply run_writes; [exact R|]. intros K. exact (Hx (H x K)). Qed.
  Lemma off_runs W a b n o b' : same_off W a b -> runs I n b o b' -> incl_w (swrites n) W -> same_off W a b'.
  Proof. intros S R H x Hx. rewrite (S x Hx). symmetry. eapply runs_writes; [exact R|]. intros K. exact (Hx (H x K)). Qed.
  Lemma off_asg W a b l b' : same_off W a b -> exec_assigns b l = Some b' -> incl_w (map fst l) W -> same_off W a b'.
  Proof. intros S R H x Hx. rewrite (S x Hx). symmetry. eapply exec_assigns_writes; [exact R|]. intros K. exact (Hx (H x K)). Qed.
  Lemma off_wr W a b i v : same_off W a b -> In i W -> same_off W a (wr b i [] v).
  Proof. intros S H x Hx. rewrite IRFacts.wr_other; [exact (S x Hx)|]. left. intros K. subst. contradiction. Qed.

  Lemma tight_upper Tc i init c u lo hi e : tight_bounds Tc i init c u = Some (lo, hi) ->
    (c = CLt (ESym i) e -> hi = ssub e (EInt 1)) /\ (c = CLe (ESym i) e -> hi = e) /\ lo = init.
  Proof.
    unfold tight_bounds. destruct (series_is_monotonic u i Tc); [|discriminate]. destruct (cnf c) as [N|] eqn:C; [|discriminate].
    destruct (cnf_upper N i) as [ub|] eqn:U; [|discriminate]. destruct (is_contiguous u i Tc); [|discriminate]. intros H. injection H as <- <-.
    split; [|split; [|reflexivity]]; intros ->; cbn in C; injection C as <-; unfold cnf_upper in U; cbn [concat app flat_map ub_cand] in U; rewrite String.eqb_refl in U;
      destruct (uses e i); cbn [andb negb app fold_left] in U; try discriminate; injection U as <-; reflexivity.
  Qed.

  Lemma loop_count W st i c u s e hi k : ((c = CLt (ESym i) e /\ eval (env_of st) e = Some (hi + 1)) \/ (c = CLe (ESym i) e /\ eval (env_of st) e = Some hi)) ->
    (forall x, In x (atoms e) -> ~ In x W) -> (forall s v, eval s u = Some v -> v = s i + 1) -> ~ In i (swrites s) -> In i W -> incl_w (swrites s) W ->
    (forall a o b z, same_off W st a -> costS w I s a o b z -> o = ONorm /\ z = k) ->
    forall a o b z, costL w I i c u s a o b z -> same_off W st a -> a i [] <= hi + 1 -> o = ONorm /\ z = (hi - a i [] + 1) * k.
  Proof.
    intros HC HW HU NI IW SW HS.
    assert (V : forall a t, same_off W st a -> cev (env_of a) c = Some t -> t = (a i [] <=? hi)).
    { intros a t S E. pose proof (eval_off W st a e S HW) as EE. destruct HC as [[-> HE]|[-> HE]]; rewrite HE in EE; symmetry in EE; apply eval_ev in EE; cbn in E; rewrite EE in E; cbn in E; injection E as <-.
      - destruct (Z.ltb_spec (env_of a i) (hi + 1)), (Z.leb_spec (a i []) hi); unfold env_of in *; lia.
      - reflexivity. }
    intros a o b z K. remember i as i0 eqn:EI. remember c as c0 eqn:EC. remember u as u0 eqn:EU. remember s as s0 eqn:ES.
    induction K as [? ? ? ? a HF|? ? ? ? a o1 b v o b' z1 z2 HT R O HE K IH|? ? ? ? a b z HT R|? ? ? ? a r b z HT R]; subst; intros S LE.
    - apply (V a false S) in HF. symmetry in HF. apply Z.leb_gt in HF. split; [reflexivity|]. replace (a i [] ) with (hi + 1) by lia. lia.
    - destruct (HS _ _ _ _ S R) as [-> ->]. pose proof (proj1 (proj2 (cost_run w I)) _ _ _ _ _ R) as R'.
      apply HU in HE. assert (F : b i [] = a i []) by (eapply runs_writes; [exact R'|exact NI]). unfold env_of in HE. rewrite F in HE. subst v.
      apply (V a true S) in HT. symmetry in HT. apply Z.leb_le in HT.
      assert (S2 : same_off W st (wr b i [] (a i [] + 1))) by (apply off_wr; [eapply off_runs; eassumption|exact IW]).
      assert (L2 : wr b i [] (a i [] + 1) i [] <= hi + 1) by (rewrite wr_same; lia).
      assert (J : o = ONorm /\ z2 = (hi - wr b i [] (a i [] + 1) i [] + 1) * k) by (apply IH; first [assumption|reflexivity]).
      destruct J as [-> ->].
      split; [reflexivity|]. rewrite wr_same. ring.
    - destruct (HS _ _ _ _ S R) as [D _]. discriminate.
    - destruct (HS _ _ _ _ S R) as [D _]. discriminate.
  Qed.

  Lemma exact_mut W st :
    (forall n ctx rs ws e, plainN W st n -> incl_w (nwrites n) W -> flopN w T ctx rs ws n = Some e ->
       exists k, eval (env_of st) e = Some k /\ forall a o b z, same_off W st a -> costN w I n a o b z -> o = ONorm /\ z = k) /\
    (forall s ctx rs ws acc q e, plainS W st s -> incl_w (swrites s) W -> eval (env_of st) acc = Some q -> flopS w T ctx rs ws acc s = Some e ->
       exists k, eval (env_of st) e = Some (q + k) /\ forall a o b z, same_off W st a -> costS w I s a o b z -> o = ONorm /\ z = k) /\
    (forall b : brs, True).
  Proof.
    apply ir_mind; cbn [plainN plainS nwrites swrites flopN flopS]; try (intros; exact Logic.I).
    - intros b ctx rs ws e _ _ H. injection H as <-. exists (block_flops w b). split; [reflexivity|]. intros a o b' z _ K. inversion K; subst. auto.
    - intros s IH ctx rs ws e P IW H. destruct (IH ctx (sreads s) (swrites s) (EInt 0) 0 e P IW eq_refl H) as (k & E & K). exists k. split; [exact E|]. intros a o b z S R. inversion R; subst. eapply K; eassumption.
    - intros bs _ ctx rs ws e _ _ H. destruct bs; [|discriminate]. injection H as <-. exists 0. split; [reflexivity|]. intros a o b z S R. inversion R as [| |? ? ? ? ? RB| | | | |]; subst. inversion RB; subst. auto.
    - intros s _ ctx rs ws e _ _ H. discriminate.
    - intros k i init c u s IH ctx rs ws e P IW H.
      change (match flopS w T (i :: ctx) (sreads s) (swrites s) (EInt 0) s with Some child => loop_flops T ctx rs ws i init c u child | None => None end = Some e) in H. destruct P as ((be & lo & hi & HC & HI & LE & HW) & HU & NI & IW1 & PS).
      destruct (flopS w T (i :: ctx) (sreads s) (swrites s) (EInt 0) s) as [child|] eqn:FS; [|discriminate].
      assert (SW : incl_w (swrites s) W) by (intros x Hx; apply IW; right; exact Hx).
      destruct (IH (i :: ctx) (sreads s) (swrites s) (EInt 0) 0 child PS SW eq_refl FS) as (kk & EK & KS). cbn [Z.add] in EK.
      unfold loop_flops in H. destruct (tight_bounds (T ctx) i init c u) as [[tlo thi]|] eqn:TB; [|discriminate].
      destruct (no_index _ tlo && _ && _ && _); [|discriminate]. injection H as <-. destruct (tight_upper _ _ _ _ _ _ _ be TB) as (U1 & U2 & ->).
      assert (EH : eval (env_of st) thi = Some hi).
      { destruct HC as [[C HE]|[C HE]]; [rewrite (U1 C)|rewrite (U2 C); exact HE]. rewrite (eval_ssub _ _ (EInt 1) _ 1 HE eq_refl). f_equal. lia. }
      exists ((hi - lo + 1) * kk). split; [apply eval_smul; [|exact EK]; apply eval_sadd; [apply eval_ssub; assumption|reflexivity]|].
      intros a o b z S R. inversion R as [| | | |? ? ? ? ? ? ? v ? ? ? EI RL| | |]; subst.
      rewrite <- (eval_off W st a init S) in EI by (intros x Hx; apply HW, in_app_iff; auto). rewrite HI in EI. injection EI as <-.
      destruct (loop_count W st i c u s be hi kk HC) with (a := wr a i [] lo) (o := o) (b := b) (z := z) as [-> ->]; try assumption.
      + intros x Hx. apply HW, in_app_iff. auto.
      + apply off_wr; assumption.
      + rewrite wr_same. exact LE.
      + rewrite wr_same. auto.
    - intros ctx rs ws e [].
    - intros ctx rs ws e [].
    - intros r ctx rs ws e [].
    - intros ctx rs ws acc q e _ _ Q H. injection H as <-. exists 0. split; [rewrite Q; f_equal; lia|]. intros a o b z _ R. inversion R; subst. auto.
    - intros n IHn l r IHr ctx rs ws acc q e (P & Pr) IW Q H.
      change (match flopN w T ctx rs ws n with Some en => flopS w T ctx rs ws (sadd acc en) r | None => None end = Some e) in H. destruct (flopN w T ctx rs ws n) as [en|] eqn:FN; [|discriminate].
      assert (W1 : incl_w (nwrites n) W) by (intros x Hx; apply IW, in_app_iff; auto).
      assert (W2 : incl_w (map fst l) W) by (intros x Hx; apply IW, in_app_iff; right; apply in_app_iff; auto).
      assert (W3 : incl_w (swrites r) W) by (intros x Hx; apply IW, in_app_iff; right; apply in_app_iff; auto).
      destruct (IHn _ _ _ _ P W1 FN) as (k1 & E1 & K1). destruct (IHr _ _ _ _ (q + k1) e Pr W3 (eval_sadd _ _ _ _ _ Q E1) H) as (k2 & E2 & K2).
      exists (k1 + k2). split; [rewrite E2; f_equal; lia|]. intros a o b z S R. inversion R as [|? ? ? ? a1 a2 ? ? z1 z2 R1 EA R2|? ? ? ? ? ? ? R1 N]; subst.
      + destruct (K1 _ _ _ _ S R1) as [_ ->]. assert (S2 : same_off W st a2).
        { eapply off_asg; [|exact EA|exact W2]. eapply off_run; [exact S|exact (proj1 (cost_run w I) _ _ _ _ _ R1)|exact W1]. }
        destruct (K2 _ _ _ _ S2 R2) as [-> ->]. auto.
      + destruct (K1 _ _ _ _ S R1) as [D _]. contradiction.
  Qed.
End Exact.
