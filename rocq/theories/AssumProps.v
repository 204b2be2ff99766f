(** C39: what the assumptions analysis says about symbols inside loops. *)
From Coq Require Import Lia.
From Verif Require Import Sym SymFacts SymFuns SymProofs1 IR IRFacts Lin PassCFG Normalize Skew Assum AssumProofs.
Local Open Scope string_scope.
Local Open Scope Z_scope.

(** the given assumptions only speak about names the program never writes *)
Definition fixed (A : assumptions) (ws : list string) : Prop :=
  forall x a, A x = Some a ->
    (forall b, In b (lowers a) -> b = ENegInf \/ ~ In x ws /\ forall y, In y (atoms b) -> ~ In y ws) /\
    (forall b, In b (uppers a) -> b = EInf \/ ~ In x ws /\ forall y, In y (atoms b) -> ~ In y ws).
Lemma fixed_good s A ws : fixed A ws -> holds s A -> good s ws A.
Proof.
  intros F H x a E. destruct (F x a E) as [FL FU], (H x a E) as [HL HU]. split; intros b Hb.
  - destruct (FL b Hb) as [->|[F1 F2]]; [split; simpl; auto|apply okL_free; auto].
  - destruct (FU b Hb) as [->|[F1 F2]]; [split; simpl; auto|apply okU_free; auto].
Qed.

(** Whenever an execution reaches a node, at any nesting depth and in any
    iteration, every lower and upper bound the analysis reports for that node
    holds in the current state.  [tameN] asks of each loop: the initial value
    does not use the index; the body writes neither the index nor the symbols of
    the header; an update called monotonic adds a positive constant; the literals
    of the condition used as bounds stand alone in their clause and are i < N,
    i < number, i <= number or i == number; bounds guessed from array extents
    follow from the header. *)
Theorem C39_bounds_hold_partial : forall I consts inv A T p st ctx m st',
  tameN consts inv A T p -> fixed A (nwrites p) -> holds (env_of st) A ->
  reaches I p st ctx m st' -> holds (env_of st') (assums_at consts inv A T ctx).
Proof.
  intros I consts inv A T p st ctx m st' W F H R. eapply good_holds. eapply (proj1 (reach_sound I consts inv)); eauto. apply fixed_good; auto.
Qed.

(* ---------------------------------------------------------------- *)
(** ** Constants *)
Lemma aconst_at L x f B : (forall y a, B y = Some a -> aconst a = true -> In y L) -> (forall a, aconst (f a) = aconst a) -> forall y a, at_sym x f B y = Some a -> aconst a = true -> In y L.
Proof.
  intros H F y a. unfold at_sym. destruct (String.eqb_spec y x) as [->|]; [|apply H]. intros [= <-]. rewrite F. destruct (B x) as [b|] eqn:E; [apply (H x b E)|discriminate].
Qed.
Lemma aconst_fold {X} L (f : X -> assumptions -> assumptions) l : (forall e B, In e l -> (forall y a, B y = Some a -> aconst a = true -> In y L) -> forall y a, f e B y = Some a -> aconst a = true -> In y L) ->
  forall B, (forall y a, B y = Some a -> aconst a = true -> In y L) -> forall y a, fold_left (fun B e => f e B) l B y = Some a -> aconst a = true -> In y L.
Proof. induction l as [|e l IH]; intros F B G; cbn [fold_left]; auto. apply IH; [intros e' B' He'; apply F; right; auto|]. apply F; [left; auto|auto]. Qed.
Lemma body_const consts ilb iub T h x a : body_assums consts ilb iub T h x = Some a -> aconst a = true -> In x (h_i h :: catoms (h_c h) ++ consts).
Proof.
  set (L := h_i h :: catoms (h_c h) ++ consts). revert x a. unfold body_assums.
  set (B0 := fold_left (fun B x => at_sym x set_const B) (catoms (h_c h) ++ consts) no_entry).
  assert (G0: forall y a, B0 y = Some a -> aconst a = true -> In y L).
  { apply (aconst_fold L (fun x B => at_sym x set_const B)); [|intros y a H; discriminate H]. intros x B Hx G y a. unfold at_sym. destruct (String.eqb_spec y x) as [->|]; [|apply G]. intros _ _. right. exact Hx. }
  set (B1 := at_sym (h_i h) (fun a => set_const (set_map (h_u h) a)) B0).
  assert (G1: forall y a, B1 y = Some a -> aconst a = true -> In y L).
  { intros y a. unfold B1, at_sym. destruct (String.eqb_spec y (h_i h)) as [->|]; [|apply G0]. intros _ _. left. auto. }
  assert (FL: forall y l B, (forall y a, B y = Some a -> aconst a = true -> In y L) -> forall z a, fold_left (fun B e => at_sym y (add_lb e) B) l B z = Some a -> aconst a = true -> In z L).
  { intros y l B G. apply (aconst_fold L (fun e B => at_sym y (add_lb e) B)); auto. intros e B' _ G'. apply aconst_at; auto. }
  assert (FU: forall y l B, (forall y a, B y = Some a -> aconst a = true -> In y L) -> forall z a, fold_left (fun B e => at_sym y (add_ub e) B) l B z = Some a -> aconst a = true -> In z L).
  { intros y l B G. apply (aconst_fold L (fun e B => at_sym y (add_ub e) B)); auto. intros e B' _ G'. apply aconst_at; auto. }
  cbn zeta. set (B2 := fold_left _ ilb B1). set (B3 := fold_left _ iub B2).
  assert (G3: forall y a, B3 y = Some a -> aconst a = true -> In y L) by (apply FU, FL, G1).
  destruct (negb _); [exact G3|].
  set (B4 := at_sym (h_i h) _ B3). assert (G4: forall y a, B4 y = Some a -> aconst a = true -> In y L) by (apply aconst_at; auto).
  set (B5 := match h_init h with ESym y => _ | _ => B4 end). assert (G5: forall y a, B5 y = Some a -> aconst a = true -> In y L) by (unfold B5; destruct (h_init h); first [exact G4 | apply FL, G4]).
  destruct (cnf (h_c h)) as [N|]; [|exact G5]. destruct (cnf_upper N (h_i h)) as [ub|]; [|exact G5].
  apply (aconst_fold L (fun x B => at_sym x (fun a => set_lbd (sadd (h_init h) (EInt 1)) (add_lb (sadd (h_init h) (EInt 1)) a)) B)); [intros e B _ G; apply aconst_at; auto|].
  set (B6 := at_sym (h_i h) _ B5). assert (G6: forall y a, B6 y = Some a -> aconst a = true -> In y L) by (apply aconst_at; auto).
  set (B7 := if is_contiguous _ _ _ then _ else B6). assert (G7: forall y a, B7 y = Some a -> aconst a = true -> In y L) by (unfold B7; destruct (is_contiguous _ _ _); auto; apply aconst_at; auto).
  destruct ub; first [exact G7 | apply FU, G7].
Qed.

(** all loops of a program keep their index and the symbols of their condition *)
Fixpoint steadyN (n : node) : Prop :=
  match n with
  | NSeq s | NWhile s => steadyS s
  | NIf b => steadyB b
  | NLoop _ i _ c _ s => (forall x, In x (i :: catoms c) -> ~ In x (swrites s)) /\ steadyS s
  | _ => True
  end
with steadyS (s : seq) : Prop := match s with SNil => True | SCons n _ r => steadyN n /\ steadyS r end
with steadyB (b : brs) : Prop := match b with BNil => True | BCons _ s r => steadyS s /\ steadyB r end.
Lemma const_all I is_sym inv :
  let C := fun (A : assumptions) ws => forall x a, A x = Some a -> aconst a = true -> ~ In x ws in
  let R := fun A T ctx m => C (fst (fold_left (enter (const_syms is_sym) inv) ctx (A, T))) (nwrites m) in
  (forall n st ctx m st', reaches I n st ctx m st' -> forall A T, steadyN n -> C A (nwrites n) -> R A T ctx m) /\
  (forall s st ctx m st', reachesS I s st ctx m st' -> forall A T, steadyS s -> C A (swrites s) -> R A T ctx m) /\
  (forall b st ctx m st', reachesB I b st ctx m st' -> forall A T, steadyB b -> C A (bwrites b) -> R A T ctx m) /\
  (forall s st ctx m st', reachesW I s st ctx m st' -> forall A T, steadyS s -> C A (swrites s) -> R A T ctx m) /\
  (forall h st ctx m st', reachesL I h st ctx m st' -> forall A T, (forall x, In x (h_i h :: catoms (h_c h)) -> ~ In x (swrites (h_body h))) -> steadyS (h_body h) -> C A (swrites (h_body h)) -> R A T ctx m).
Proof.
  intros C R.
  assert (SUB: forall A ws ws', C A ws -> incl ws' ws -> C A ws') by (intros A ws ws' H S x a E K Q; exact (H x a E K (S _ Q))).
  apply reach_mind.
  - intros n st A T _ G. exact G.
  - intros s st ctx m st' _ IH A T W G. apply IH; auto.
  - intros s st ctx m st' _ IH A T W G. apply IH; auto.
  - intros s st ctx m st' _ IH A T W G. apply IH; auto.
  - intros k i init c u s st v ctx m st' _ _ IH A T [W1 W2] G. apply IH; auto. eapply SUB; [exact G|]. intros y Hy. right. exact Hy.
  - intros n a r st ctx m st' _ IH A T [W1 W2] G. apply IH; auto. eapply SUB; [exact G|]. intros y Hy. cbn. apply in_or_app. auto.
  - intros n a r st st1 st2 ctx m st' _ _ _ IH A T [W1 W2] G. apply IH; auto. eapply SUB; [exact G|]. intros y Hy. cbn. apply in_or_app. right. apply in_or_app. auto.
  - intros c s r st ctx m st' _ _ IH A T [W1 W2] G. apply IH; auto. eapply SUB; [exact G|]. intros y Hy. cbn. apply in_or_app. auto.
  - intros c s r st ctx m st' _ _ IH A T [W1 W2] G. apply IH; auto. eapply SUB; [exact G|]. intros y Hy. cbn. apply in_or_app. auto.
  - intros s st ctx m st' _ IH A T W G. apply IH; auto.
  - intros s st o1 st1 ctx m st' _ _ _ IH A T W G. apply IH; auto.
  - intros h st ctx m st' _ _ IH A T W1 W2 G. unfold R. cbn [fold_left]. rewrite (surjective_pairing (enter (const_syms is_sym) inv (A, T) h)). apply IH; auto.
    unfold enter. cbn [fst snd]. intros x a E K. unfold propagate in E. destruct (body_assums _ _ _ _ h x) as [b|] eqn:EB.
    + assert (D: aconst b = true -> ~ In x (swrites (h_body h))).
      { intros Kb. pose proof (body_const _ _ _ _ _ _ _ EB Kb) as Q. destruct Q as [<-|Q]; [apply W1; left; auto|]. apply in_app_or in Q as [Q|Q]; [apply W1; right; auto|].
        unfold const_syms in Q. apply filter_In in Q as [_ Q]. apply andb_true_iff in Q as [_ Q]. apply negb_true_iff in Q. intros Z. assert (existsb (String.eqb x) (swrites (h_body h)) = true) by (apply existsb_exists; exists x; split; auto; apply String.eqb_refl). congruence. }
      destruct (A x) as [c|] eqn:EA; injection E as <-; [|auto]. cbn [merge aconst] in K. apply orb_true_iff in K as [K|K]; [auto|exact (G x c EA K)].
    + exact (G x a E K).
  - intros h st o1 st1 v ctx m st' _ _ _ _ _ IH A T W1 W2 G. apply IH; auto.
Qed.
(** A symbol reported constant at a node keeps its value while the node runs. *)
Theorem C39_constant_partial : forall I is_sym inv A T p st ctx m st' x a o st'',
  steadyN p -> (forall y b, A y = Some b -> aconst b = true -> ~ In y (nwrites p)) ->
  reaches I p st ctx m st' -> assums_at (const_syms is_sym) inv A T ctx x = Some a -> aconst a = true ->
  run I m st' o st'' -> env_of st'' x = env_of st' x.
Proof.
  intros I is_sym inv A T p st ctx m st' x a o st'' W F R E K X. unfold env_of. eapply run_writes; [exact X|]. exact (proj1 (const_all I is_sym inv) _ _ _ _ _ R A T W F x a E K).
Qed.

(* ---------------------------------------------------------------- *)
(** ** A program that meets the hypotheses *)
Definition inv_of (M : list memlet) (h : hdr) := inv_bounds (fun _ => false) ESym M (h_i h).
(** for (i = 0; i < N; i++) for (j = i; j < N; j++) A[j] = B[i] *)
Definition wblk : node := NBlock [{| o_code := 0%nat; o_ins := [ORead "B" [ESym "i"]]; o_out := "A"; o_sub := [ESym "j"] |}].
Definition inner_h : hdr := {| h_i := "j"; h_init := ESym "i"; h_c := CLt (ESym "j") (ESym "N"); h_u := EAdd [EInt 1; ESym "j"]; h_body := SCons wblk [] SNil |}.
Definition inner_n : node := NLoop KFor "j" (ESym "i") (CLt (ESym "j") (ESym "N")) (EAdd [EInt 1; ESym "j"]) (SCons wblk [] SNil).
Definition outer_h : hdr := {| h_i := "i"; h_init := EInt 0; h_c := CLt (ESym "i") (ESym "N"); h_u := EAdd [EInt 1; ESym "i"]; h_body := SCons inner_n [] SNil |}.
Definition outer_n : node := NLoop KFor "i" (EInt 0) (CLt (ESym "i") (ESym "N")) (EAdd [EInt 1; ESym "i"]) (SCons inner_n [] SNil).
Definition mems : list memlet := [{| m_data := "A"; m_subset := [ESym "j"]; m_dims := [None] |}; {| m_data := "B"; m_subset := [ESym "i"]; m_dims := [None] |}].
Lemma step1 x : exists k, 0 < k /\ forall s v, eval s (EAdd [EInt 1; ESym x]) = Some v -> v = s x + k.
Proof. exists 1. split; [lia|]. intros s v H. assert (E: stride x (EAdd [EInt 1; ESym x]) = Some 1) by (cbn; rewrite String.eqb_refl; auto). rewrite (LoopAnaProofs.stride_sound _ _ _ s E) in H. congruence. Qed.
Lemma plain_lt i n : plain_bounds i (CLt (ESym i) (ESym n)).
Proof. intros N cl lit [= <-] [<-|[]] [<-|[]] _. split; auto. Qed.
Example outer_tame : tameN (const_syms (fun _ => true)) (inv_of mems) no_entry no_entry outer_n.
Proof.
  cbn [tameN outer_n]. split; [|cbn [tameS]; split; auto; cbn [tameN inner_n]; split; [|cbn; auto]].
  - split; cbn [h_i h_init h_c h_u h_body]; auto.
    + intros x Hx Q. cbn in Hx, Q. intuition congruence.
    + intros _. apply step1.
    + apply plain_lt.
    + vm_compute. intros e [<-|[]] y [].
    + intros s v _ _ Hv Hi. vm_compute in Hv. injection Hv as <-. specialize (Hi eq_refl). split; intros e He; vm_compute in He; [|destruct He]. destruct He as [<-|[]]. cbn. split; lia.
  - split; cbn [h_i h_init h_c h_u h_body]; auto.
    + intros x Hx Q. cbn in Hx, Q. intuition congruence.
    + intros _. apply step1.
    + apply plain_lt.
    + vm_compute. intros e [<-|[]] y [].
    + intros s v HA _ Hv Hi. unfold eval in Hv. cbn in Hv. assert (v = s "i") by congruence. subst v.
      assert (0 <= s "i").
      { destruct (HA "i" _ eq_refl) as [HL _]. specialize (HL (EInt 0)). assert (xle (ev s (EInt 0)) (Fin (s "i"))) as Z; [|exact Z]. apply HL. vm_compute. auto. }
      specialize (Hi eq_refl). split; intros e He; vm_compute in He; [|destruct He]. destruct He as [<-|[]]. cbn. split; lia.
Qed.
Example outer_steady : steadyN outer_n.
Proof. cbn. repeat split; auto; intros x Hx Q; cbn in Hx, Q; intuition congruence. Qed.
(** what it says at the assignment: i <= j <= N - 1, 0 <= i <= N - 1, 1 <= N, 1 + i <= N *)
Example outer_says : let A := assums_at (const_syms (fun _ => true)) (inv_of mems) no_entry no_entry [outer_h; inner_h] in
  option_map lower_bound (A "j") = Some (EMax [ESym "i"; EMax [ESym "i"; EInt 0]]) /\ option_map upper_bound (A "i") = Some (EAdd [EInt (-1); ESym "N"]) /\
  option_map lbs (A "N") = Some [EInt 1; EAdd [EInt 1; ESym "i"]].
Proof. vm_compute. auto. Qed.
Definition st3 : store := fun x _ => if String.eqb x "N" then 3 else 0.
Example outer_reached : exists st', reaches (fun _ l => hd_error l) outer_n st3 [outer_h; inner_h] wblk st' /\ env_of st' "i" = 0 /\ env_of st' "j" = 1.
Proof.
  eexists. split.
  - eapply V_loop; [reflexivity|]. apply (V_lnow _ outer_h); [reflexivity|]. apply V_head. eapply V_loop; [reflexivity|].
    eapply (V_lnext _ inner_h _ ONorm); [reflexivity| |left; reflexivity|reflexivity|].
    + eapply R_cons; [apply R_block; reflexivity|reflexivity|apply R_nil].
    + apply (V_lnow _ inner_h); [reflexivity|]. apply V_head, V_here.
  - split; reflexivity.
Qed.

(* ---------------------------------------------------------------- *)
(** ** Where the reported bounds are wrong *)
Definition hop : node := NBlock [].
Lemma first_iter I k i init c u n a r st v : eval (env_of st) init = Some v -> cev (env_of (wr st i [] v)) c = Some true ->
  reaches I (NLoop k i init c u (SCons n a r)) st [{| h_i := i; h_init := init; h_c := c; h_u := u; h_body := SCons n a r |}] n (wr st i [] v).
Proof. intros H1 H2. eapply V_loop; [exact H1|]. apply V_lnow; [exact H2|]. apply V_head, V_here. Qed.
(** The analysis, from no assumptions, reports a bound at [m] that is false there. *)
Definition wrong_bound (M : list memlet) (p : node) : Prop :=
  exists st ctx m st', reaches (fun _ l => hd_error l) p st ctx m st' /\ ~ holds (env_of st') (assums_at (const_syms (fun _ => true)) (inv_of M) no_entry no_entry ctx).
Definition stv (l : list (string * Z)) : store := fun x _ => match find (fun p => String.eqb x (fst p)) l with Some (_, v) => v | None => 0 end.

Definition for_le : node := NLoop KFor "i" (EInt 0) (CLe (ESym "i") (ESym "N")) (EAdd [EInt 1; ESym "i"]) (SCons hop [] SNil).
(** for (i = 0; i <= N; ...) is reported to need N >= 1; it runs for N = 0 *)
Theorem C39_le_bound_refuted : wrong_bound [] for_le.
Proof.
  exists (stv [("N", 0)]). eexists _, _, _. split; [apply first_iter; reflexivity|].
  intros H. destruct (H "N" _ eq_refl) as [Z _]. specialize (Z (EInt 1)). assert (Q: xle (Fin 1) (Fin 0)) by (apply Z; vm_compute; auto). cbn in Q. lia.
Qed.
(** i < N || i < M is reported to bound i by both *)
Definition for_or : node := NLoop KFor "i" (EInt 0) (COr [CLt (ESym "i") (ESym "N"); CLt (ESym "i") (ESym "M")]) (EAdd [EInt 1; ESym "i"]) (SCons hop [] SNil).
Theorem C39_disjunction_refuted : wrong_bound [] for_or.
Proof.
  exists (stv [("N", 0); ("M", 3)]). eexists _, _, _. split; [apply first_iter; reflexivity|].
  intros H. destruct (H "i" _ eq_refl) as [_ Z]. specialize (Z (EMin [EAdd [EInt (-1); ESym "N"]; EAdd [EInt (-1); ESym "M"]])). assert (Q: xle (Fin 0) (Fin (-1))) by (apply Z; vm_compute; auto). cbn in Q. lia.
Qed.
(** i < 10 - M is reported to need M >= 1 *)
Definition for_sub : node := NLoop KFor "i" (EInt 0) (CLt (ESym "i") (EAdd [EInt 10; EMul [EInt (-1); ESym "M"]])) (EAdd [EInt 1; ESym "i"]) (SCons hop [] SNil).
Theorem C39_bound_symbol_refuted : wrong_bound [] for_sub.
Proof.
  exists (stv [("M", -5)]). eexists _, _, _. split; [apply first_iter; reflexivity|].
  intros H. destruct (H "M" _ eq_refl) as [Z _]. specialize (Z (EInt 1)). assert (Q: xle (Fin 1) (Fin (-5))) by (apply Z; vm_compute; auto). cbn in Q. lia.
Qed.
(** an access A[10 - i] to an array of 11 elements is read as i >= 10 *)
Definition for_10 : node := NLoop KFor "i" (EInt 0) (CLt (ESym "i") (EInt 11)) (EAdd [EInt 1; ESym "i"])
  (SCons (NBlock [{| o_code := 0%nat; o_ins := [OConst 1]; o_out := "A"; o_sub := [EAdd [EInt 10; EMul [EInt (-1); ESym "i"]]] |}]) [] SNil).
Theorem C39_reversed_access_refuted : wrong_bound [{| m_data := "A"; m_subset := [EAdd [EInt 10; EMul [EInt (-1); ESym "i"]]]; m_dims := [Some (EInt 11)] |}] for_10.
Proof.
  exists (stv []). eexists _, _, _. split; [apply first_iter; reflexivity|].
  intros H. destruct (H "i" _ eq_refl) as [Z _]. specialize (Z (EIdiv (EAdd [EInt (-10); EInt 0]) (EInt (-1)))). assert (Q: xle (Fin 10) (Fin 0)) by (apply Z; vm_compute; auto). cbn in Q. lia.
Qed.
(** in double A[10][5], A[i][j] bounds i by 4: the extents are matched from the
    wrong end.  The loop reaches i = 9. *)
Definition for_2d : node := NLoop KFor "i" (EInt 9) (CLt (ESym "i") (EInt 10)) (EAdd [EInt 1; ESym "i"])
  (SCons (NBlock [{| o_code := 0%nat; o_ins := [OConst 1]; o_out := "A"; o_sub := [ESym "i"; ESym "j"] |}]) [] SNil).
Theorem C39_extent_order_refuted : wrong_bound [{| m_data := "A"; m_subset := [ESym "i"; ESym "j"]; m_dims := [Some (EInt 10); Some (EInt 5)] |}] for_2d.
Proof.
  exists (stv []). eexists _, _, _. split; [apply first_iter; reflexivity|].
  intros H. destruct (H "i" _ eq_refl) as [_ Z]. specialize (Z (EInt 4)). assert (Q: xle (Fin 9) (Fin 4)) by (apply Z; vm_compute; auto). cbn in Q. lia.
Qed.
(** an access made only under a condition bounds the index everywhere *)
Definition for_if : node := NLoop KFor "i" (EInt 5) (CLt (ESym "i") (EInt 9)) (EAdd [EInt 1; ESym "i"])
  (SCons (NIf (BCons (CLt (ESym "i") (EInt 4)) (SCons (NBlock [{| o_code := 0%nat; o_ins := [OConst 1]; o_out := "A"; o_sub := [ESym "i"] |}]) [] SNil) BNil)) [] SNil).
Theorem C39_guarded_access_refuted : wrong_bound [{| m_data := "A"; m_subset := [ESym "i"]; m_dims := [Some (EInt 4)] |}] for_if.
Proof.
  exists (stv []). eexists _, _, _. split; [apply first_iter; reflexivity|].
  intros H. destruct (H "i" _ eq_refl) as [_ Z]. specialize (Z (EInt 3)). assert (Q: xle (Fin 5) (Fin 3)) by (apply Z; vm_compute; auto). cbn in Q. lia.
Qed.
(** a loop starting from its own variable: i = i + 5 is reported as i >= i + 5 *)
Definition for_own : node := NLoop KFor "i" (EAdd [EInt 5; ESym "i"]) (CLt (ESym "i") (EInt 9)) (EAdd [EInt 1; ESym "i"]) (SCons hop [] SNil).
Theorem C39_own_start_refuted : wrong_bound [] for_own.
Proof.
  exists (stv []). eexists _, _, _. split; [apply first_iter; reflexivity|].
  intros H. destruct (H "i" _ eq_refl) as [Z _]. specialize (Z (EAdd [EInt 5; ESym "i"])). assert (Q: xle (Fin 10) (Fin 5)) by (apply Z; vm_compute; auto). cbn in Q. lia.
Qed.
(** a body that lowers the bound: N is still called constant and i <= N - 1 *)
Definition for_shrink : node := NLoop KFor "i" (EInt 0) (CLt (ESym "i") (ESym "N")) (EAdd [EInt 1; ESym "i"]) (SCons hop [("N", EInt 0)] (SCons hop [] SNil)).
Theorem C39_written_bound_refuted : wrong_bound [] for_shrink.
Proof.
  exists (stv [("N", 3)]). eexists _, _, _. split.
  - eapply V_loop; [reflexivity|]. apply V_lnow; [reflexivity|]. cbn [h_body]. eapply V_tail; [apply R_block; reflexivity|reflexivity|]. apply V_head, V_here.
  - intros H. destruct (H "i" _ eq_refl) as [_ Z]. specialize (Z (EAdd [EInt (-1); ESym "N"])). assert (Q: xle (Fin 0) (Fin (-1))) by (apply Z; vm_compute; auto). cbn in Q. lia.
Qed.
Theorem C39_constant_refuted : exists st ctx m st' a st'', reaches (fun _ l => hd_error l) for_shrink st ctx m st' /\
  assums_at (const_syms (fun _ => true)) (inv_of []) no_entry no_entry ctx "N" = Some a /\ aconst a = true /\
  runs (fun _ l => hd_error l) (h_body (hd outer_h ctx)) st' ONorm st'' /\ env_of st'' "N" <> env_of st' "N".
Proof.
  exists (stv [("N", 3)]). eexists _, _, _, _, _. split; [apply first_iter; reflexivity|]. split; [reflexivity|]. split; [reflexivity|]. split.
  - cbn [hd h_body]. eapply R_cons; [apply R_block; reflexivity|reflexivity|]. eapply R_cons; [apply R_block; reflexivity|reflexivity|apply R_nil].
  - cbn. discriminate.
Qed.
Print Assumptions C39_bounds_hold_partial.
