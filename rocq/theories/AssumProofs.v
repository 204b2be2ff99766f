(** Soundness of the loop assumptions. *)
From Coq Require Import Lia.
From Verif Require Import Sym SymFacts SymFuns SymProofs1 SymProofs4 IR IRFacts Lin PassCFG LoopAnaProofs Normalize Skew Assum.
Local Open Scope string_scope.
Local Open Scope Z_scope.

(** a bound survives any change of the names in [ws] *)
Definition keeps_out (ws : list string) (s s' : env) : Prop := forall y, ~ In y ws -> s' y = s y.
Definition okL (s : env) (ws : list string) (x : string) (b : expr) : Prop :=
  xle (ev s b) (Fin (s x)) /\ forall s1 s2, keeps_out ws s1 s2 -> xle (ev s1 b) (Fin (s1 x)) -> xle (ev s2 b) (Fin (s2 x)).
Definition okU (s : env) (ws : list string) (x : string) (b : expr) : Prop :=
  xle (Fin (s x)) (ev s b) /\ forall s1 s2, keeps_out ws s1 s2 -> xle (Fin (s1 x)) (ev s1 b) -> xle (Fin (s2 x)) (ev s2 b).
Definition okA (s : env) (ws : list string) (x : string) (a : assumption) : Prop :=
  (forall b, In b (lowers a) -> okL s ws x b) /\ (forall b, In b (uppers a) -> okU s ws x b).
Definition good (s : env) (ws : list string) (A : assumptions) : Prop := forall x a, A x = Some a -> okA s ws x a.

Lemma good_holds s ws A : good s ws A -> holds s A.
Proof. intros G x a H. destruct (G x a H) as [L U]. split; intros b Hb; [exact (proj1 (L b Hb))|exact (proj1 (U b Hb))]. Qed.
Lemma okL_free s ws x b : ~ In x ws -> (forall y, In y (atoms b) -> ~ In y ws) -> xle (ev s b) (Fin (s x)) -> okL s ws x b.
Proof. intros Hx Hb H. split; auto. intros s1 s2 K Q. rewrite (K x Hx). rewrite (ev_agree s2 s1 b); auto. intros y Hy. apply K, Hb, Hy. Qed.
Lemma okU_free s ws x b : ~ In x ws -> (forall y, In y (atoms b) -> ~ In y ws) -> xle (Fin (s x)) (ev s b) -> okU s ws x b.
Proof. intros Hx Hb H. split; auto. intros s1 s2 K Q. rewrite (K x Hx). rewrite (ev_agree s2 s1 b); auto. intros y Hy. apply K, Hb, Hy. Qed.
Lemma okA_default s ws x : okA s ws x assum_default.
Proof. split; intros b [<-|[]]; split; simpl; auto. Qed.
Lemma good_frame s s' ws A : keeps_out ws s s' -> good s ws A -> good s' ws A.
Proof.
  intros K G x a H. destruct (G x a H) as [L U]. split; intros b Hb.
  - destruct (L b Hb) as [L1 L2]. split; auto. exact (L2 s s' K L1).
  - destruct (U b Hb) as [L1 L2]. split; auto. exact (L2 s s' K L1).
Qed.
Lemma good_sub s ws ws' A : incl ws' ws -> good s ws A -> good s ws' A.
Proof.
  intros S G x a H. destruct (G x a H) as [L U]. split; intros b Hb.
  - destruct (L b Hb) as [L1 L2]. split; auto. intros s1 s2 K. apply L2. intros y Hy. apply K. intros G'. apply Hy, S, G'.
  - destruct (U b Hb) as [L1 L2]. split; auto. intros s1 s2 K. apply L2. intros y Hy. apply K. intros G'. apply Hy, S, G'.
Qed.
Lemma good_at s ws B x f : good s ws B -> (forall a, okA s ws x a -> okA s ws x (f a)) -> good s ws (at_sym x f B).
Proof.
  intros G F y a. unfold at_sym. destruct (String.eqb_spec y x) as [->|]; [|apply G]. intros [= <-]. apply F. destruct (B x) as [b|] eqn:E; [apply (G x b E)|apply okA_default].
Qed.
Lemma good_fold {X} s ws (f : X -> assumptions -> assumptions) l : (forall e, In e l -> forall B, good s ws B -> good s ws (f e B)) -> forall B, good s ws B -> good s ws (fold_left (fun B e => f e B) l B).
Proof. induction l as [|e l IH]; intros F B G; cbn [fold_left]; auto. apply IH; [intros e' He'; apply F; right; auto|]. apply F; [left; auto|auto]. Qed.
Lemma okA_add_lb s ws x e a : okL s ws x e -> okA s ws x a -> okA s ws x (add_lb e a).
Proof. intros H [L U]. split; [|exact U]. intros b [<-|Hb]; [apply L; left; auto|]. cbn [add_lb lbs tlb app] in Hb. destruct Hb as [<-|Hb]; auto. apply L. right. auto. Qed.
Lemma okA_add_ub s ws x e a : okU s ws x e -> okA s ws x a -> okA s ws x (add_ub e a).
Proof. intros H [L U]. split; [exact L|]. intros b [<-|Hb]; [apply U; left; auto|]. cbn [add_ub ubs tub app] in Hb. destruct Hb as [<-|Hb]; auto. apply U. right. auto. Qed.
Lemma okA_set_lbd s ws x e a : okL s ws x e -> okA s ws x a -> okA s ws x (set_lbd e a).
Proof. intros H [L U]. split; [|exact U]. intros b [<-|Hb]; auto. apply L. right. auto. Qed.
Lemma okA_set_ubd s ws x e a : okU s ws x e -> okA s ws x a -> okA s ws x (set_ubd e a).
Proof. intros H [L U]. split; [exact L|]. intros b [<-|Hb]; auto. apply U. right. auto. Qed.
Lemma okA_set_tlb s ws x e a : okL s ws x e -> okA s ws x a -> okA s ws x (set_tlb e a).
Proof. intros H [L U]. split; [|exact U]. intros b [<-|Hb]; [apply L; left; auto|]. cbn [set_tlb lbs tlb] in Hb. apply in_app_or in Hb as [Hb|[<-|[]]]; auto. apply L. right. apply in_or_app. auto. Qed.
Lemma okA_set_tub s ws x e a : okU s ws x e -> okA s ws x a -> okA s ws x (set_tub e a).
Proof. intros H [L U]. split; [exact L|]. intros b [<-|Hb]; [apply U; left; auto|]. cbn [set_tub ubs tub] in Hb. apply in_app_or in Hb as [Hb|[<-|[]]]; auto. apply U. right. apply in_or_app. auto. Qed.

Lemma xle_max p q v : xle (xmax p q) (Fin v) <-> xle p (Fin v) /\ xle q (Fin v).
Proof. destruct p, q; simpl; try tauto; lia. Qed.
Lemma xle_min p q v : xle (Fin v) (xmin p q) <-> xle (Fin v) p /\ xle (Fin v) q.
Proof. destruct p, q; simpl; try tauto; lia. Qed.
Lemma okL_max s ws x a b : okL s ws x a -> okL s ws x b -> okL s ws x (smax a b).
Proof. intros [H1 H2] [H3 H4]. split; [rewrite ev_smax; apply xle_max; auto|]. intros s1 s2 K. rewrite !ev_smax, !xle_max. intros [Q1 Q2]. split; [apply (H2 s1 s2 K Q1)|apply (H4 s1 s2 K Q2)]. Qed.
Lemma okU_min s ws x a b : okU s ws x a -> okU s ws x b -> okU s ws x (smin a b).
Proof. intros [H1 H2] [H3 H4]. split; [rewrite ev_smin; apply xle_min; auto|]. intros s1 s2 K. rewrite !ev_smin, !xle_min. intros [Q1 Q2]. split; [apply (H2 s1 s2 K Q1)|apply (H4 s1 s2 K Q2)]. Qed.
Lemma okA_merge s ws x a b : okA s ws x a -> okA s ws x b -> okA s ws x (merge a b).
Proof.
  intros [L1 U1] [L2 U2]. split; intros e [<-|He].
  - apply okL_max; [apply L2|apply L1]; left; auto.
  - cbn [merge lbs tlb] in He. apply in_app_or in He as [He|He]; [apply in_app_or in He as [He|He]; [apply L2|apply L1]; right; apply in_or_app; auto|].
    unfold or_else in He. destruct (tlb a) as [t|] eqn:E; [apply L1|apply L2]; right; apply in_or_app; right; rewrite ?E; auto.
  - apply okU_min; [apply U2|apply U1]; left; auto.
  - cbn [merge ubs tub] in He. apply in_app_or in He as [He|He]; [apply in_app_or in He as [He|He]; [apply U2|apply U1]; right; apply in_or_app; auto|].
    unfold or_else in He. destruct (tub a) as [t|] eqn:E; [apply U1|apply U2]; right; apply in_or_app; right; rewrite ?E; auto.
Qed.
Lemma good_propagate s ws B A : good s ws B -> good s ws A -> good s ws (propagate B A).
Proof.
  intros GB GA x a. unfold propagate. destruct (B x) as [b|] eqn:EB, (A x) as [c|] eqn:EA; intros [= <-]; auto. apply okA_merge; auto.
Qed.
Lemma atoms_smin a b x : In x (atoms (smin a b)) -> In x (atoms a) \/ In x (atoms b).
Proof.
  unfold smin. intros H. assert (G: In x (atoms (if expr_eqb a b then a else EMin [a; b])) -> In x (atoms a) \/ In x (atoms b)).
  { destruct (expr_eqb a b); auto. cbn [atoms map concat]. rewrite app_nil_r. intros Q. apply in_app_or in Q. auto. }
  destruct a, b; auto; try (destruct H; fail).
Qed.
Lemma atoms_fold_smin l : forall e x, In x (atoms (fold_left smin l e)) -> exists q, In q (e :: l) /\ In x (atoms q).
Proof.
  induction l as [|f l IH]; intros e x H; cbn [fold_left] in H; [exists e; split; auto; left; auto|].
  apply IH in H as (q & [<-|Hq] & Hx); [|exists q; split; auto; right; right; auto]. apply atoms_smin in Hx as [Hx|Hx]; [exists e|exists f]; split; auto; [left; auto|right; left; auto].
Qed.

(** ** The condition of a loop *)
(** literals the analysis uses stand alone in their clause, and compare the
    index with a number, or strictly with a symbol *)
Definition plain_bounds (i : string) (c : cond) : Prop :=
  forall N cl lit, cnf c = Some N -> In cl N -> In lit cl -> ub_cand i lit <> [] ->
    cl = [lit] /\ match lit with CLt _ (ESym _) => True | CLt _ e | CLe _ e | CEq _ e => atoms e = [] | _ => True end.

Lemma cand_true s i lit e : In e (ub_cand i lit) -> cev s lit = Some true -> xle (Fin (s i)) (ev s e).
Proof.
  destruct lit as [| [] e'| |[] e'|[] e'| | |]; cbn [ub_cand]; try (intros []; fail); destruct (_ && _) eqn:E; try (intros []; fail); intros [<-|[]]; apply andb_true_iff in E as [E _]; apply String.eqb_eq in E; subst; cbn [cev ev].
  - destruct (ev s e'); cbn; intros H; try discriminate. injection H as H. apply Z.eqb_eq in H. lia.
  - rewrite ev_ssub. destruct (ev s e'); cbn; intros H; try discriminate; auto. injection H as H. apply negb_true_iff, Z.leb_gt in H. lia.
  - destruct (ev s e'); cbn; intros H; try discriminate; auto. injection H as H. apply Z.leb_le in H. lia.
Qed.

Lemma ub_atom (i : string) (c : cond) (N : list (list cond)) (ub : expr) (s : env) x : plain_bounds i c -> cnf c = Some N -> cnf_upper N i = Some ub -> cev s c = Some true ->
  xle (Fin (s i)) (ev s ub) /\ (In x (atoms ub) -> s i < s x /\ In x (catoms c)).
Proof.
  intros P HN HU HC. unfold cnf_upper in HU. destruct (flat_map (ub_cand i) (concat N)) as [|e0 r] eqn:E; [discriminate|]. injection HU as <-.
  assert (Q: forall e, In e (e0 :: r) -> exists cl lit, In cl N /\ In lit cl /\ In e (ub_cand i lit) /\ cev s lit = Some true /\ match lit with CLt _ (ESym _) => True | CLt _ e | CLe _ e | CEq _ e => atoms e = [] | _ => True end).
  { intros e He. rewrite <- E in He. apply in_flat_map in He as (lit & Hl & He). apply in_concat in Hl as (cl & Hcl & Hl). exists cl, lit.
    assert (NE: ub_cand i lit <> []) by (intros Z; rewrite Z in He; destruct He). destruct (P N cl lit HN Hcl Hl NE) as [-> S].
    destruct (proj1 (cnf_equiv s c N true HN HC) eq_refl _ Hcl) as (l' & [<-|[]] & Tl). repeat split; auto. }
  clear E. split.
  - assert (G: forall e, In e (e0 :: r) -> xle (Fin (s i)) (ev s e)) by (intros e He; destruct (Q e He) as (cl & lit & _ & _ & Hc & Ht & _); exact (cand_true s i lit e Hc Ht)).
    clear Q. revert e0 G. induction r as [|f r IH]; intros e0 G; cbn [fold_left]; [apply G; left; auto|]. apply IH. intros e [<-|He]; [rewrite ev_smin; apply xle_min; split; apply G; [left|right; left]; auto|apply G; right; right; auto].
  - intros Hx. apply atoms_fold_smin in Hx as (q & Hq & Hx). destruct (Q q Hq) as (cl & lit & Hcl & Hl & Hc & Ht & S).
    assert (HA: forall y, In y (catoms lit) -> In y (catoms c)) by (intros y Hy; apply (cnf_fuel_atoms _ c N HN); exists cl, lit; auto).
    destruct lit as [| [] e'| |[] e'|[] e'| | |]; cbn [ub_cand] in Hc; try (destruct Hc; fail); destruct (_ && _) eqn:Eb; try (destruct Hc; fail); destruct Hc as [<-|[]]; apply andb_true_iff in Eb as [Eb _]; apply String.eqb_eq in Eb; subst.
    + rewrite S in Hx. destruct Hx.
    + apply atoms_ssub in Hx as [Hx|[]]. destruct e'; try (rewrite S in Hx; destruct Hx; fail). cbn in Hx. destruct Hx as [<-|[]]. split; [|apply HA; cbn; auto].
      cbn [cev ev xleb negb option_map] in Ht. unfold xleb in Ht. cbn in Ht. injection Ht as Ht. apply negb_true_iff, Z.leb_gt in Ht. lia.
    + rewrite S in Hx. destruct Hx.
Qed.

Section Sound.
  Variable I : nat -> list Z -> option Z.
  Variables (consts : hdr -> list string) (inv : hdr -> list expr * list expr).

  (** Conditions on a loop entered with outer assumptions [A] (without) and [T]
      (with the trivial bounds). *)
  Record tame (A T : assumptions) (h : hdr) : Prop := {
    (** the initial value does not use the index; the body changes neither the
        index nor a symbol of the initial value or of the condition *)
    t_init : uses (h_init h) (h_i h) = false;
    t_stable : forall x, In x (h_i h :: atoms (h_init h) ++ catoms (h_c h)) -> ~ In x (swrites (h_body h));
    (** an update called monotonic adds a positive constant *)
    t_step : series_is_monotonic (h_u h) (h_i h) T = true -> exists k, 0 < k /\ forall s v, eval s (h_u h) = Some v -> v = s (h_i h) + k;
    t_cond : plain_bounds (h_i h) (h_c h);
    (** bounds guessed from index accesses follow from the loop header *)
    t_inv_free : forall e, In e (fst (inv h) ++ snd (inv h)) -> forall y, In y (atoms e) -> ~ In y (swrites (h_body h));
    t_inv : forall s v, holds s A -> cev s (h_c h) = Some true -> eval s (h_init h) = Some v -> (series_is_monotonic (h_u h) (h_i h) T = true -> v <= s (h_i h)) ->
      (forall e, In e (fst (inv h)) -> xle (ev s e) (Fin (s (h_i h))) /\ xle (ev s e) (Fin v)) /\
      (forall e, In e (snd (inv h)) -> xle (Fin (s (h_i h))) (ev s e)) }.

  Fixpoint tameN (A T : assumptions) (n : node) : Prop :=
    match n with
    | NSeq s | NWhile s => tameS A T s
    | NIf b => tameB A T b
    | NLoop k i init c u s =>
        let h := {| h_i := i; h_init := init; h_c := c; h_u := u; h_body := s |} in
        tame A T h /\ tameS (fst (enter consts inv (A, T) h)) (snd (enter consts inv (A, T) h)) s
    | _ => True
    end
  with tameS (A T : assumptions) (s : seq) : Prop := match s with SNil => True | SCons n a r => tameN A T n /\ tameS A T r end
  with tameB (A T : assumptions) (b : brs) : Prop := match b with BNil => True | BCons c s r => tameS A T s /\ tameB A T r end.

  Lemma enter_good A T h s v : tame A T h -> good s (swrites (h_body h)) A -> cev s (h_c h) = Some true -> eval s (h_init h) = Some v ->
    (series_is_monotonic (h_u h) (h_i h) T = true -> v <= s (h_i h)) -> good s (swrites (h_body h)) (fst (enter consts inv (A, T) h)).
  Proof.
    intros [T1 T2 T3 T4 T5 T6] G HC HI HM. destruct (T6 s v (good_holds _ _ _ G) HC HI HM) as [IL IU]. unfold enter. cbn [fst snd]. apply good_propagate; auto. clear G.
    set (ws := swrites (h_body h)) in *. set (i := h_i h) in *.
    assert (Ii: ~ In i ws) by (apply T2; left; auto).
    assert (Ia: forall y, In y (atoms (h_init h)) -> ~ In y ws) by (intros y Hy; apply T2; right; apply in_or_app; auto).
    assert (Ic: forall y, In y (catoms (h_c h)) -> ~ In y ws) by (intros y Hy; apply T2; right; apply in_or_app; auto).
    assert (VI: ev s (h_init h) = Fin v) by (unfold eval in HI; destruct (ev s (h_init h)); congruence).
    assert (LB: forall e, In e (fst (inv h)) -> okL s ws i e) by (intros e He; apply okL_free; auto; [intros y; apply T5; apply in_or_app; auto|apply IL; auto]).
    assert (UB: forall e, In e (snd (inv h)) -> okU s ws i e) by (intros e He; apply okU_free; auto; intros y; apply T5; apply in_or_app; auto).
    unfold body_assums. fold i.
    set (B0 := fold_left (fun B x => at_sym x set_const B) (catoms (h_c h) ++ consts h) no_entry).
    assert (G0: good s ws B0). { apply (good_fold s ws (fun x B => at_sym x set_const B)). intros x _ B GB. apply good_at; auto. intros x a H. discriminate H. }
    set (B1 := at_sym i (fun a => set_const (set_map (h_u h) a)) B0). assert (G1: good s ws B1) by (apply good_at; auto).
    set (B2 := fold_left (fun B e => at_sym i (add_lb e) B) (fst (inv h)) B1).
    assert (G2: good s ws B2). { apply (good_fold s ws (fun e B => at_sym i (add_lb e) B)); auto. intros e He B GB. apply good_at; auto. intros a. apply okA_add_lb. auto. }
    set (B3 := fold_left (fun B e => at_sym i (add_ub e) B) (snd (inv h)) B2).
    assert (G3: good s ws B3). { apply (good_fold s ws (fun e B => at_sym i (add_ub e) B)); auto. intros e He B GB. apply good_at; auto. intros a. apply okA_add_ub. auto. }
    cbn zeta. destruct (series_is_monotonic (h_u h) i T) eqn:EM; cbn [negb]; [|exact G3]. specialize (HM eq_refl).
    assert (Ln: okL s ws i (h_init h)) by (apply okL_free; auto; rewrite VI; exact HM).
    set (B4 := at_sym i (fun a => set_lbd (h_init h) (set_tlb (h_init h) (add_lb (h_init h) a))) B3).
    assert (G4: good s ws B4). { apply good_at; auto. intros a Ha. apply okA_set_lbd, okA_set_tlb, okA_add_lb; auto. }
    set (B5 := match h_init h with ESym y => fold_left (fun B e => at_sym y (add_lb e) B) (fst (inv h)) B4 | _ => B4 end).
    assert (G5: good s ws B5).
    { unfold B5. destruct (h_init h) as [| | |y| | | | | | | | | | |] eqn:Ei; auto. apply (good_fold s ws (fun e B => at_sym y (add_lb e) B)); auto. intros e He B GB. apply good_at; auto. intros a. apply okA_add_lb.
      apply okL_free; [apply Ia; cbn; auto|intros z; apply T5; apply in_or_app; auto|]. cbn in VI. rewrite VI. apply IL; auto. }
    destruct (cnf (h_c h)) as [N|] eqn:EN; [|exact G5]. destruct (cnf_upper N i) as [ub|] eqn:EU; [|exact G5].
    pose proof (fun x => ub_atom i (h_c h) N ub s x T4 EN EU HC) as UA.
    assert (Uf: forall y, In y (atoms ub) -> ~ In y ws) by (intros y Hy; apply Ic; apply (UA y); auto).
    assert (Un: okU s ws i ub) by (apply okU_free; auto; apply (UA i)).
    set (B6 := at_sym i (fun a => set_ubd ub (add_ub ub a)) B5). assert (G6: good s ws B6) by (apply good_at; auto; intros a Ha; apply okA_set_ubd, okA_add_ub; auto).
    set (B7 := if is_contiguous (h_u h) i T then at_sym i (set_tub ub) B6 else B6).
    assert (G7: good s ws B7). { unfold B7. destruct (is_contiguous _ _ _); auto. apply good_at; auto. intros a. apply okA_set_tub; auto. }
    set (B8 := match ub with ESym y => fold_left (fun B e => at_sym y (add_ub e) B) (snd (inv h)) B7 | _ => B7 end).
    assert (G8: good s ws B8).
    { unfold B8. destruct ub as [| | |y| | | | | | | | | | |] eqn:Eu; auto. exfalso.
      (* under plain_bounds a bound is never a bare symbol: it would be strictly above the index and at most it *)
      destruct (UA y) as [U1 U2]. destruct U2 as [U2 _]; [cbn; auto|]. clear - EU T4 EN U2 HC.
      assert (exists e, In e (flat_map (ub_cand i) (concat N)) /\ (e = ESym y)) as (e & He & Ee).
      { unfold cnf_upper in EU. destruct (flat_map (ub_cand i) (concat N)) as [|e0 r]; [discriminate|]. injection EU as EU. exists (ESym y). split; auto. revert e0 EU. induction r as [|f r IH]; intros e0 EU; cbn [fold_left] in EU; [left; auto|].
        destruct (IH _ EU) as [H|H]; [|right; right; auto]. unfold smin in H. destruct e0, f; try discriminate H; try (destruct (expr_eqb _ _) eqn:EE; [|discriminate H]; left; exact H). }
      subst e. apply in_flat_map in He as (lit & Hl & He). apply in_concat in Hl as (cl & Hcl & Hl).
      assert (NE: ub_cand i lit <> []) by (intros Z; rewrite Z in He; destruct He). destruct (T4 N cl lit EN Hcl Hl NE) as [_ S].
      destruct lit as [| [] e'| |[] e'|[] e'| | |]; cbn [ub_cand] in He; try (destruct He; fail); destruct (_ && _); try (destruct He; fail); destruct He as [He|[]].
      - subst e'. discriminate S.
      - destruct e'; try (assert (Hy: In y (atoms (ssub _ (EInt 1)))) by (rewrite He; left; reflexivity); apply atoms_ssub in Hy as [Hy|[]]; rewrite S in Hy; destruct Hy; fail). cbn in He. discriminate He.
      - subst e'. discriminate S. }
    fold B6. apply (good_fold s ws (fun x B => at_sym x (fun a => set_lbd (sadd (h_init h) (EInt 1)) (add_lb (sadd (h_init h) (EInt 1)) a)) B)); auto.
    intros x Hx B GB. apply good_at; auto. intros a Ha.
    assert (okL s ws x (sadd (h_init h) (EInt 1))).
    { apply okL_free; [apply Uf; auto|intros y Hy; apply atoms_sadd in Hy as [Hy|[]]; auto|]. rewrite ev_sadd, VI. cbn. destruct (UA x) as [_ U2]. destruct (U2 Hx). lia. }
    apply okA_set_lbd, okA_add_lb; auto.
  Qed.

  Definition goodR A T ctx m st' := good (env_of st') (nwrites m) (fst (fold_left (enter consts inv) ctx (A, T))).
  Lemma reach_sound :
    (forall n st ctx m st', reaches I n st ctx m st' -> forall A T, tameN A T n -> good (env_of st) (nwrites n) A -> goodR A T ctx m st') /\
    (forall s st ctx m st', reachesS I s st ctx m st' -> forall A T, tameS A T s -> good (env_of st) (swrites s) A -> goodR A T ctx m st') /\
    (forall b st ctx m st', reachesB I b st ctx m st' -> forall A T, tameB A T b -> good (env_of st) (bwrites b) A -> goodR A T ctx m st') /\
    (forall s st ctx m st', reachesW I s st ctx m st' -> forall A T, tameS A T s -> good (env_of st) (swrites s) A -> goodR A T ctx m st') /\
    (forall h st ctx m st', reachesL I h st ctx m st' -> forall A T v0, tame A T h -> tameS (fst (enter consts inv (A, T) h)) (snd (enter consts inv (A, T) h)) (h_body h) ->
      good (env_of st) (h_i h :: swrites (h_body h)) A -> eval (env_of st) (h_init h) = Some v0 -> (series_is_monotonic (h_u h) (h_i h) T = true -> v0 <= env_of st (h_i h)) -> goodR A T ctx m st').
  Proof.
    apply reach_mind.
    - intros n st A T _ G. exact G.
    - intros s st ctx m st' _ IH A T W G. apply IH; auto.
    - intros b st ctx m st' _ IH A T W G. apply IH; auto.
    - intros s st ctx m st' _ IH A T W G. apply IH; auto.
    - intros k i init c u s st v ctx m st' Hv _ IH A T [W1 W2] G. apply (IH A T v); auto; cbn [h_i h_init h_body h_u h_c].
      + apply (good_frame (env_of st)); auto. intros y Hy. unfold env_of. apply IRFacts.wr_other. left. intros ->. apply Hy. left. auto.
      + rewrite <- Hv. unfold eval. rewrite (ev_agree (env_of (wr st i [] v)) (env_of st)); auto. intros y Hy. unfold env_of. apply IRFacts.wr_other. left. intros ->.
        pose proof (t_init _ _ _ W1) as U. cbn in U. apply uses_atoms in Hy. congruence.
      + intros _. unfold env_of. rewrite wr_same. lia.
    - intros n a r st ctx m st' _ IH A T [W1 W2] G. apply IH; auto. eapply good_sub; [|exact G]. cbn [swrites]. intros y Hy. apply in_or_app. auto.
    - intros n a r st st1 st2 ctx m st' R E _ IH A T [W1 W2] G. apply IH; auto. cbn [swrites] in G.
      assert (G': good (env_of st2) (nwrites n ++ map fst a ++ swrites r) A).
      { apply (good_frame (env_of st)); auto. intros y Hy. unfold env_of. rewrite (exec_assigns_writes _ _ _ E y); [|intros Q; apply Hy, in_or_app; right; apply in_or_app; auto].
        eapply run_writes; [exact R|]. intros Q. apply Hy, in_or_app. auto. }
      eapply good_sub; [|exact G']. intros y Hy. apply in_or_app. right. apply in_or_app. auto.
    - intros c s r st ctx m st' _ _ IH A T [W1 W2] G. apply IH; auto. eapply good_sub; [|exact G]. intros y Hy. cbn. apply in_or_app. auto.
    - intros c s r st ctx m st' _ _ IH A T [W1 W2] G. apply IH; auto. eapply good_sub; [|exact G]. intros y Hy. cbn. apply in_or_app. auto.
    - intros s st ctx m st' _ IH A T W G. apply IH; auto.
    - intros s st o1 st1 ctx m st' R _ _ IH A T W G. apply IH; auto. apply (good_frame (env_of st)); auto. intros y Hy. unfold env_of. eapply runs_writes; eauto.
    - intros h st ctx m st' HC _ IH A T v0 W1 W2 G HI HM. unfold goodR. cbn [fold_left]. rewrite (surjective_pairing (enter consts inv (A, T) h)). apply IH; auto.
      apply (enter_good A T h _ v0); auto. eapply good_sub; [|exact G]. intros y Hy. right. auto.
    - intros h st o1 st1 v ctx m st' HC R _ HU _ IH A T v0 W1 W2 G HI HM.
      assert (K: forall y, ~ In y (swrites (h_body h)) -> env_of st1 y = env_of st y) by (intros y Hy; unfold env_of; eapply runs_writes; eauto).
      assert (Ki: env_of st1 (h_i h) = env_of st (h_i h)) by (apply K, (t_stable _ _ _ W1); left; auto).
      apply (IH A T v0); auto.
      + apply (good_frame (env_of st)); auto. intros y Hy. unfold env_of. rewrite IRFacts.wr_other; [|left; intros Q; apply Hy; left; exact Q]. apply K. intros Q. apply Hy. right. auto.
      + rewrite <- HI. unfold eval. rewrite (ev_agree (env_of (wr st1 (h_i h) [] v)) (env_of st)); auto. intros y Hy. unfold env_of at 1. rewrite IRFacts.wr_other.
        * apply K, (t_stable _ _ _ W1). right. apply in_or_app. auto.
        * left. intros Q. rewrite <- Q in Hy. pose proof (t_init _ _ _ W1) as U. apply uses_atoms in Hy. congruence.
      + intros M. unfold env_of at 1. rewrite wr_same. destruct (t_step _ _ _ W1 M) as (k & K0 & Q). rewrite (Q _ _ HU), Ki. specialize (HM M). lia.
  Qed.
End Sound.
