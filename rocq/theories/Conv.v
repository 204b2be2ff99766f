(** Expansion of the convolution node.

    Models sdfg/src/data_flow/library_nodes/math/tensor/conv_node.cpp:84-470. *)
From Verif Require Export Blas.
From Verif Require Import SymFuns SymFacts SymProofs1 SymProps TypesProofs Skew.
Open Scope string_scope.
Open Scope Z_scope.
Import ListNotations.

(** The parameters of one spatial dimension: kernel size, stride, padding
    before and after, dilation, input size. *)
Record cdim (T : Type) := { c_k : T; c_s : T; c_b : T; c_e : T; c_d : T; c_in : T }.
Arguments c_k {T}. Arguments c_s {T}. Arguments c_b {T}. Arguments c_e {T}. Arguments c_d {T}. Arguments c_in {T}.

(** conv_node.cpp:158-196 (defaults: stride 1, padding 0, dilation 1; the end
    paddings follow the begin paddings), :204-214 (the shape; the branch that
    invents names when the shape is too short is not modelled). *)
Definition conv_dims (shape kernel strides pads dils : list expr) : list (cdim expr) :=
  let sd := List.length kernel in
  map (fun i => {| c_k := nth i kernel (EInt 0); c_s := nth i strides (EInt 1); c_b := nth i pads (EInt 0);
                   c_e := nth (sd + i) pads (EInt 0); c_d := nth i dils (EInt 1); c_in := nth (2 + i) shape (EInt 0) |})
    (List.seq 0 sd).
(** conv_node.cpp:229-238 *)
Definition conv_num (c : cdim expr) : expr :=
  ssub (sadd (c_in c) (sadd (c_b c) (c_e c))) (sadd (smul (c_d c) (ssub (c_k c) (EInt 1))) (EInt 1)).
Definition conv_out (c : cdim expr) : option expr :=
  match sym_div (conv_num c) (c_s c) with Some q => Some (sadd q (EInt 1)) | None => None end.
Fixpoint conv_outs (l : list (cdim expr)) : option (list expr) :=
  match l with
  | [] => Some []
  | c :: r => match conv_out c, conv_outs r with Some e, Some es => Some (e :: es) | _, _ => None end
  end.
(** conv_node.cpp:359-368 *)
Definition conv_index (od k : string) (c : cdim expr) : expr :=
  sadd (ssub (smul (ESym od) (c_s c)) (c_b c)) (smul (ESym k) (c_d c)).
Fixpoint conv_indices (ods ks : list string) (l : list (cdim expr)) : list expr :=
  match ods, ks, l with
  | od :: ods', k :: ks', c :: l' => conv_index od k c :: conv_indices ods' ks' l'
  | _, _, _ => []
  end.
Record conv_vars := { v_n : string; v_oc : string; v_od : list string; v_acc : string; v_ic : string; v_k : list string }.
(** conv_node.cpp:301-311 (accumulator), 313-350 (loops), 352-415 (multiply-add), 417-451 (bias, output) *)
Definition conv_body (fmac addc : nat) (zero : Z) (X W Y : string) (B : option string) (cin : expr) (cds : list (cdim expr)) (v : conv_vars) : seq :=
  SCons (NBlock [{| o_code := 0; o_ins := [OConst zero]; o_out := v_acc v; o_sub := [] |}]) []
  (sapp (nest (fors (v_ic v :: v_k v) (cin :: map c_k cds))
     (single [{| o_code := fmac;
                 o_ins := [ORead X (ESym (v_n v) :: ESym (v_ic v) :: conv_indices (v_od v) (v_k v) cds);
                           ORead W (ESym (v_oc v) :: ESym (v_ic v) :: syms (v_k v)); ORead (v_acc v) []];
                 o_out := v_acc v; o_sub := [] |}]))
  (single [match B with
           | Some b => {| o_code := addc; o_ins := [ORead (v_acc v) []; ORead b [ESym (v_oc v)]]; o_out := Y; o_sub := syms (v_n v :: v_oc v :: v_od v) |}
           | None => {| o_code := 0; o_ins := [ORead (v_acc v) []]; o_out := Y; o_sub := syms (v_n v :: v_oc v :: v_od v) |}
           end])).
(** conv_node.cpp:84-470; [group] is not used by the generated accesses (:388-392). *)
Definition expand_conv (fmac addc : nat) (zero : Z) (X W Y : string) (B : option string)
    (shape kernel strides pads dils : list expr) (cout group : expr) (v : conv_vars) : option node :=
  match kernel with
  | [] => None
  | _ =>
    if (List.length shape <? 2 + List.length kernel)%nat then None else
    let cds := conv_dims shape kernel strides pads dils in
    match conv_outs cds with
    | None => None
    | Some outs =>
      Some (NSeq (nest (maps (v_n v :: v_oc v :: v_od v) (nth 0 shape (EInt 0) :: cout :: outs))
        (conv_body fmac addc zero X W Y B (nth 1 shape (EInt 0)) cds v)))
    end
  end.

(* ------------------------------------------------------------------ *)
Definition cdim_eval (s : env) (c : cdim expr) (d : cdim Z) : Prop :=
  eval s (c_k c) = Some (c_k d) /\ eval s (c_s c) = Some (c_s d) /\ eval s (c_b c) = Some (c_b d) /\
  eval s (c_e c) = Some (c_e d) /\ eval s (c_d c) = Some (c_d d) /\ eval s (c_in c) = Some (c_in d).
Definition cdim_exprs (c : cdim expr) : list expr := [c_k c; c_s c; c_b c; c_e c; c_d c; c_in c].
(** The number of output positions the code computes. *)
Definition out_size (d : cdim Z) : Z := Z.quot (c_in d + (c_b d + c_e d) - (c_d d * (c_k d - 1) + 1)) (c_s d) + 1.
Definition window (o k : Z) (d : cdim Z) : Z := o * c_s d - c_b d + k * c_d d.
Fixpoint windows (os ks : list Z) (l : list (cdim Z)) : list Z :=
  match os, ks, l with o :: os', k :: ks', d :: l' => window o k d :: windows os' ks' l' | _, _, _ => [] end.

Lemma conv_out_eval s c d e : cdim_eval s c d -> c_s d <> 0 -> conv_out c = Some e -> eval s e = Some (out_size d).
Proof.
  intros (Hk & Hs & Hb & He & Hd & Hi) Hs0 H. unfold conv_out in H.
  destruct (sym_div (conv_num c) (c_s c)) as [q|] eqn:Eq; [|discriminate]. injection H as <-.
  unfold out_size. apply eval_plus; [|reflexivity].
  eapply C01_div_value; eauto. unfold conv_num.
  apply eval_ssub; [apply eval_plus; [auto|apply eval_plus; auto]|].
  apply eval_plus; [|reflexivity]. apply eval_mul; [auto|]. apply eval_ssub; [auto|reflexivity].
Qed.
Lemma conv_outs_eval s cds ds : Forall2 (cdim_eval s) cds ds -> Forall (fun d : cdim Z => c_s d <> 0) ds ->
  forall outs, conv_outs cds = Some outs -> evals s outs = Some (map out_size ds).
Proof.
  induction 1 as [|c d cds ds Hc H IH]; intros HF outs Ho; cbn in Ho.
  - injection Ho as <-. auto.
  - inversion HF as [|? ? Hd0 HF2]; subst. destruct (conv_out c) as [e|] eqn:Ec; [|discriminate]. destruct (conv_outs cds) as [es|] eqn:Es; [|discriminate].
    injection Ho as <-. cbn. rewrite (conv_out_eval s c d e), (IH HF2 es); auto.
Qed.

Lemma sym_div_atoms l r e x : sym_div l r = Some e -> In x (atoms e) -> In x (atoms l) \/ In x (atoms r).
Proof.
  unfold sym_div. intros H Hx. destruct (expr_eqb r (EInt 0)); [injection H as <-; cbn in Hx; apply in_app_iff in Hx; auto|].
  destruct (expr_eqb r (EInt 1)); [injection H as <-; auto|].
  destruct (expr_eqb l (EInt 0)); [injection H as <-; contradiction|].
  assert (G : e = EIdiv l r \/ exists z, e = EInt z).
  { destruct l; try (left; congruence). destruct r; try (left; congruence). right.
    destruct (as_int z) as [p|]; [|discriminate]. destruct (as_int z0) as [q|]; [|discriminate].
    destruct (long_div p q) as [w|]; [|discriminate]. exists w. cbn in H. congruence. }
  destruct G as [->|[z ->]]; [cbn in Hx; apply in_app_iff in Hx; auto|contradiction].
Qed.
Lemma conv_outs_atoms : forall cds outs e x, conv_outs cds = Some outs -> In e outs -> In x (atoms e) ->
  exists e', In e' (flat_map cdim_exprs cds) /\ In x (atoms e').
Proof.
  induction cds as [|c cds IH]; intros outs e x H He Hx; cbn in H.
  - injection H as <-. contradiction.
  - destruct (conv_out c) as [q|] eqn:Ec; [|discriminate]. destruct (conv_outs cds) as [es|] eqn:Es; [|discriminate].
    injection H as <-. destruct He as [<-|He].
    + unfold conv_out in Ec. destruct (sym_div (conv_num c) (c_s c)) as [d|] eqn:Ed; [|discriminate]. injection Ec as <-.
      apply atoms_sadd in Hx as [Hx|[]]. destruct (sym_div_atoms _ _ _ _ Ed Hx) as [K|K].
      * unfold conv_num in K. apply atoms_ssub in K as [K|K].
        -- apply atoms_sadd in K as [K|K]; [|apply atoms_sadd in K as [K|K]].
           ++ exists (c_in c); cbn; auto 12.
           ++ exists (c_b c); cbn; auto 12.
           ++ exists (c_e c); cbn; auto 12.
        -- apply atoms_sadd in K as [K|[]]. apply atoms_smul in K as [K|K].
           ++ exists (c_d c); cbn; auto 12.
           ++ apply atoms_ssub in K as [K|[]]. exists (c_k c); cbn; auto.
      * exists (c_s c); cbn; auto.
    + destruct (IH es e x eq_refl He Hx) as (e' & H1 & H2). exists e'. split; auto. cbn. auto 12.
Qed.
Lemma conv_outs_length : forall cds outs, conv_outs cds = Some outs -> List.length outs = List.length cds.
Proof.
  induction cds as [|c cds IH]; intros outs H; cbn in H; [injection H as <-; auto|].
  destruct (conv_out c); [|discriminate]. destruct (conv_outs cds); [|discriminate]. injection H as <-. cbn. auto.
Qed.
Lemma conv_indices_eval s : forall cds ds ods ks os kv, Forall2 (cdim_eval s) cds ds ->
  evals s (syms ods) = Some os -> evals s (syms ks) = Some kv -> List.length ods = List.length cds -> List.length ks = List.length cds ->
  evals s (conv_indices ods ks cds) = Some (windows os kv ds).
Proof.
  intros cds ds ods ks os kv H. revert ods ks os kv.
  induction H as [|c d cds ds Hc H IH]; intros [|od ods] [|k ks] os kv H1 H2 L1 L2; try discriminate.
  - injection H1 as <-. auto.
  - cbn [syms map evals] in H1, H2. change (map ESym ods) with (syms ods) in H1. change (map ESym ks) with (syms ks) in H2.
    destruct (eval s (ESym od)) as [o|] eqn:Eo; [|discriminate]. destruct (evals s (syms ods)) as [os'|] eqn:Eos; [|discriminate].
    destruct (eval s (ESym k)) as [kk|] eqn:Ek; [|discriminate]. destruct (evals s (syms ks)) as [ks'|] eqn:Eks; [|discriminate].
    injection H1 as <-. injection H2 as <-. cbn [conv_indices windows evals]. unfold conv_index at 1.
    rewrite (IH ods ks os' ks') by (auto; cbn in *; lia).
    destruct Hc as (Hk & Hs & Hb & He & Hd & Hi).
    rewrite (eval_plus _ _ _ (o * c_s d - c_b d) (kk * c_d d)); [reflexivity| |].
    + apply eval_ssub; auto. apply eval_mul; auto.
    + apply eval_mul; auto.
Qed.

Definition conv_hid (v : conv_vars) : list string := v_n v :: v_oc v :: v_od v ++ v_acc v :: v_ic v :: v_k v.
Definition conv_value (fma : Z -> Z -> Z -> Z) (add : Z -> Z -> Z) (zero : Z) (st : store) (X W : string) (B : option string)
    (Ci : Z) (ds : list (cdim Z)) (j : list Z) : Z :=
  match j with
  | n :: oc :: os =>
      let s := fold_left (fun a q => match q with ic :: ks => fma (st X (n :: ic :: windows os ks ds)) (st W (oc :: ic :: ks)) a | [] => a end)
                 (box (Ci :: map c_k ds)) zero in
      match B with Some b => add s (st b [oc]) | None => s end
  | _ => 0 end.

Lemma conv_run I fmac fma addc add zero X W Y B n0 cout cin cds outs v N Co Ci ds (st : store) :
  (forall a, I 0%nat [a] = Some a) -> (forall a b c, I fmac [a; b; c] = Some (fma a b c)) ->
  (forall a b, I addc [a; b] = Some (add a b)) ->
  NoDup (conv_hid v) -> List.length (v_od v) = List.length cds -> List.length (v_k v) = List.length cds ->
  (forall z, In z (Y :: X :: W :: match B with Some b => [b] | None => [] end) -> ~ In z (conv_hid v)) ->
  ~ In Y (X :: W :: match B with Some b => [b] | None => [] end) ->
  (forall e z, In e (n0 :: cout :: cin :: flat_map cdim_exprs cds) -> In z (atoms e) -> z <> Y /\ ~ In z (conv_hid v)) ->
  evals (env_of st) [n0; cout; cin] = Some [N; Co; Ci] -> Forall2 (cdim_eval (env_of st)) cds ds ->
  Forall (fun d : cdim Z => c_s d <> 0) ds -> conv_outs cds = Some outs ->
  exists st', runs I (nest (maps (v_n v :: v_oc v :: v_od v) (n0 :: cout :: outs)) (conv_body fmac addc zero X W Y B cin cds v)) st ONorm st' /\
    scattered (conv_hid v) Y (fun j => j) (conv_value fma add zero st X W B Ci ds) st (box (N :: Co :: map out_size ds)) st'.
Proof.
  intros H0 HF HA Hnd L1 L2 Hpub Hout Hat Ev HD HS Ho.
  cbn [evals] in Ev. destruct (eval (env_of st) n0) as [?|] eqn:En; [|discriminate].
  destruct (eval (env_of st) cout) as [?|] eqn:Eco; [|discriminate]. destruct (eval (env_of st) cin) as [?|] eqn:Eci; [|discriminate].
  injection Ev as -> -> ->.
  pose proof (conv_outs_length _ _ Ho) as L3.
  assert (Eouts := conv_outs_eval _ _ _ HD HS _ Ho).
  set (ov := v_n v :: v_oc v :: v_od v). set (iv := v_ic v :: v_k v).
  assert (Hhid : conv_hid v = (ov ++ v_acc v :: iv)%list) by reflexivity.
  assert (Nov : NoDup ov) by (rewrite Hhid in Hnd; clear -Hnd; induction ov; [constructor|]; inversion Hnd; subst; constructor; [rewrite in_app_iff in *; tauto|auto]).
  assert (Hnd2 := Hnd). rewrite Hhid in Hnd2. apply NoDup_remove in Hnd2 as [Hnd2 Hacc].
  assert (Niv : NoDup iv) by (clear -Hnd2; induction ov; [auto|inversion Hnd2; auto]).
  assert (Hdis : forall z, In z ov -> ~ In z iv).
  { clear -Hnd2. induction ov as [|a l IH]; intros z Hz Hi; [contradiction|]. inversion Hnd2; subst.
    destruct Hz as [<-|Hz]; [apply H1; apply in_or_app; auto|eapply IH; eauto]. }
  assert (Hao : ~ In (v_acc v) ov) by (intros K; apply Hacc, in_or_app; auto).
  assert (Hai : ~ In (v_acc v) iv) by (intros K; apply Hacc, in_or_app; auto).
  assert (Eq : forall (s : store), (forall z i, ~ In z (conv_hid v) -> z <> Y -> s z i = st z i) ->
    forall e, In e (n0 :: cout :: cin :: flat_map cdim_exprs cds) -> eval (env_of s) e = eval (env_of st) e).
  { intros s Hs e He. apply eval_eqx with (D := fun z => z = Y \/ In z (conv_hid v)).
    - intros z Hz i. apply Hs; [intros K1; apply Hz; auto|intros ->; apply Hz; auto].
    - intros z Hz K1. destruct (Hat e z He Hz) as [K2 K3]. destruct K1; auto. }
  assert (EqD : forall (s : store), (forall z i, ~ In z (conv_hid v) -> z <> Y -> s z i = st z i) -> Forall2 (cdim_eval (env_of s)) cds ds).
  { intros s Hs. assert (G : forall e, In e (flat_map cdim_exprs cds) -> eval (env_of s) e = eval (env_of st) e) by (intros e He; apply Eq; cbn; auto).
    clear -HD G. induction HD as [|c d cds ds Hc HD IH]; constructor.
    - destruct Hc as (Hk & Hs' & Hb & He & Hd & Hi). unfold cdim_eval.
      rewrite (G (c_k c)), (G (c_s c)), (G (c_b c)), (G (c_e c)), (G (c_d c)), (G (c_in c)) by (cbn; auto 12). auto 12.
    - apply IH. intros e He. apply G. cbn. auto 12. }
  assert (PY : ~ In Y (conv_hid v)) by (apply Hpub; left; auto).
  assert (PX : ~ In X (conv_hid v)) by (apply Hpub; right; left; auto).
  assert (PW : ~ In W (conv_hid v)) by (apply Hpub; right; right; left; auto).
  assert (OX : X <> Y) by (intros ->; apply Hout; left; auto). assert (OW : W <> Y) by (intros ->; apply Hout; right; left; auto).
  assert (Lov : List.length ov = List.length (n0 :: cout :: outs)) by (cbn; lia).
  assert (Liv : List.length iv = List.length (cin :: map c_k cds)) by (cbn; rewrite map_length; lia).
  assert (Ek : forall s, Forall2 (cdim_eval s) cds ds -> evals s (map c_k cds) = Some (map c_k ds)).
  { intros s G. clear -G. induction G as [|c d cds ds Hc G IH]; [auto|]. cbn. destruct Hc as (Hk & _). rewrite Hk, IH. auto. }
  apply scatter_body.
  - rewrite maps_lvar; auto.
  - rewrite maps_lvar; auto. rewrite Hhid. intros z Hz. apply in_or_app; auto.
  - auto.
  - apply maps_bounds; auto. cbn [evals]. rewrite En, Eco, Eouts. auto.
  - intros e x He Hx. apply maps_shape in He. destruct He as [He|[He|He]].
    + rewrite <- He in Hx. apply (Hat n0 x); cbn; auto.
    + rewrite <- He in Hx. apply (Hat cout x); cbn; auto.
    + destruct (conv_outs_atoms _ _ _ _ Ho He Hx) as (e' & K1 & K2). apply (Hat e' x); cbn; auto.
  - auto.
  - intros done idx rest s Hbox [S1 S2] Hv. rewrite maps_lvar in Hv by auto.
    destruct (box_split_fresh _ _ _ _ Hbox) as [Hni Hin]. apply box_In in Hin.
    rewrite maps_lvar by auto.
    inversion Hin as [|? n ? r Hn Hr]; subst. inversion Hr as [|? oc ? os Hoc Hos]; subst. clear Hr.
    assert (Sfr : forall z i, ~ In z (conv_hid v) -> z <> Y -> s z i = st z i) by (intros z i Hz Hc; apply S2; auto).
    set (acc := v_acc v) in *. set (s1 := wr s acc [] zero).
    assert (F1 : forall z i, z <> acc -> s1 z i = s z i) by (intros z i Hz; unfold s1; apply IRFacts.wr_other; left; auto).
    assert (Fr1 : forall z i, ~ In z (conv_hid v) -> z <> Y -> s1 z i = st z i).
    { intros z i Hz Hy. rewrite F1; auto. intros ->. apply Hz. rewrite Hhid. apply in_or_app; right; left; auto. }
    set (step := fun (q : list Z) a => match q with ic :: ks => fma (st X (n :: ic :: windows os ks ds)) (st W (oc :: ic :: ks)) a | [] => a end).
    assert (Hov : forall (t : store), (forall z i, ~ In z iv -> (z <> acc \/ i <> []) -> t z i = s1 z i) -> Forall2 (fun v z => t v [] = z) ov (n :: oc :: os)).
    { intros t Ht. clear -Hv Ht F1 Hdis Hao. revert Hv. generalize (n :: oc :: os). intros l Hv.
      assert (G : forall z, In z ov -> t z [] = s z []).
      { intros z Hz. assert (z <> acc) by (intros ->; auto). rewrite Ht; auto. }
      clear -Hv G. induction Hv as [|a b l l' Hab Hv IH]; constructor; [rewrite G by (left; auto); auto|apply IH; intros; apply G; right; auto]. }
    assert (Frt : forall (t : store), (forall z i, ~ In z iv -> (z <> acc \/ i <> []) -> t z i = s1 z i) -> forall z i, ~ In z (conv_hid v) -> z <> Y -> t z i = st z i).
    { intros t Ht z i Hz Hy. rewrite Ht; [apply Fr1; auto| |].
      - intros K. apply Hz. rewrite Hhid. apply in_or_app. right. right. auto.
      - left. intros ->. apply Hz. rewrite Hhid. apply in_or_app. right. left. auto. }
    destruct (accum_nest I
      [{| o_code := fmac; o_ins := [ORead X (ESym (v_n v) :: ESym (v_ic v) :: conv_indices (v_od v) (v_k v) cds);
            ORead W (ESym (v_oc v) :: ESym (v_ic v) :: syms (v_k v)); ORead acc []]; o_out := acc; o_sub := [] |}]
      (fors iv (cin :: map c_k cds)) (Ci :: map c_k ds) acc step s1) as (s2 & R2 & V2 & F2).
    + rewrite fors_lvar; auto.
    + rewrite fors_lvar; auto.
    + apply fors_bounds; auto. cbn [evals]. rewrite (Eq s1 Fr1 cin) by (cbn; auto). rewrite Eci, (Ek _ (EqD s1 Fr1)). auto.
    + intros e x He Hx. apply fors_shape in He. rewrite fors_lvar by auto.
      assert (G : x <> Y /\ ~ In x (conv_hid v)).
      { destruct He as [He|He]; [rewrite <- He in Hx; apply (Hat cin x); cbn; auto|].
        apply in_map_iff in He as (c & Hc & Hin2). apply (Hat (c_k c) x); [|rewrite Hc; auto].
        right. right. right. apply in_flat_map. exists c. cbn. auto. }
      destruct G as [_ G]. rewrite Hhid in G. split.
      * intros K. apply G. apply in_or_app. right. right. auto.
      * intros ->. apply G. apply in_or_app. right. left. auto.
    + intros t q Hq Ft Hqv. rewrite fors_lvar in Ft, Hqv by auto. apply box_In in Hq.
      inversion Hq as [|? ic ? ks Hic Hks]; subst.
      specialize (Hov t Ft). specialize (Frt t Ft).
      assert (X1 := evals_syms _ _ _ Hov). assert (X2 := evals_syms _ _ _ Hqv).
      cbn [syms map ov iv evals] in X1, X2. change (map ESym (v_od v)) with (syms (v_od v)) in X1. change (map ESym (v_k v)) with (syms (v_k v)) in X2.
      destruct (eval (env_of t) (ESym (v_n v))) eqn:T1; [|discriminate]. destruct (eval (env_of t) (ESym (v_oc v))) eqn:T2; [|discriminate].
      destruct (evals (env_of t) (syms (v_od v))) eqn:T3; [|discriminate]. destruct (eval (env_of t) (ESym (v_ic v))) eqn:T4; [|discriminate].
      destruct (evals (env_of t) (syms (v_k v))) eqn:T5; [|discriminate].
      injection X1 as -> -> ->. injection X2 as -> ->.
      cbn [exec_block]. unfold exec_op. cbn [o_ins o_code o_out o_sub reads_in read_in evals].
      rewrite T1, T2, T4, T5. rewrite (conv_indices_eval _ _ _ _ _ _ _ (EqD t Frt) T3 T5) by auto.
      rewrite HF, (Frt X), (Frt W) by auto. reflexivity.
    + rewrite fors_lvar in F2 by auto.
      assert (V2' : s2 acc [] = fold_left (fun a q => step q a) (box (Ci :: map c_k ds)) zero).
      { rewrite V2. unfold s1 at 1. rewrite wr_same. reflexivity. }
      specialize (Hov s2 F2). specialize (Frt s2 F2).
      assert (X1 := evals_syms _ _ _ Hov).
      set (val := conv_value fma add zero st X W B Ci ds (n :: oc :: os)).
      exists (wr s2 Y (n :: oc :: os) val). split; [|split; [|split]].
      * unfold conv_body. apply R_cons with (st1 := s1) (st2 := s1); [apply R_block|reflexivity|].
        { cbn [exec_block]. unfold exec_op. cbn [o_ins o_code o_out o_sub reads_in read_in evals]. rewrite H0. reflexivity. }
        eapply runs_sapp; [exact R2|].
        apply R_cons with (st1 := wr s2 Y (n :: oc :: os) val) (st2 := wr s2 Y (n :: oc :: os) val); [apply R_block|reflexivity|apply R_nil].
        change (v_n v :: v_oc v :: v_od v) with ov.
        destruct B as [b|].
        -- assert (T2 : eval (env_of s2) (ESym (v_oc v)) = Some oc).
           { cbn. unfold env_of. inversion Hov as [|? ? ? ? _ Hov2]; subst. inversion Hov2; subst. auto. }
           cbn [exec_block]. unfold exec_op. cbn [o_ins o_code o_out o_sub reads_in read_in evals].
           fold acc. rewrite T2, V2'. rewrite (Frt b).
           ++ rewrite HA, X1. reflexivity.
           ++ apply Hpub. right. right. right. left. auto.
           ++ intros ->. apply Hout. right. right. left. auto.
        -- cbn [exec_block]. unfold exec_op. cbn [o_ins o_code o_out o_sub reads_in read_in evals].
           fold acc. rewrite V2', H0, X1. reflexivity.
      * rewrite wr_same. reflexivity.
      * intros z i Hz K1. rewrite IRFacts.wr_other by (destruct K1; auto).
        rewrite F2; [rewrite F1; auto| |].
        -- intros ->. apply Hz. rewrite Hhid. apply in_or_app. right. left. auto.
        -- intros K. apply Hz. rewrite Hhid. apply in_or_app. right. right. auto.
        -- left. intros ->. apply Hz. rewrite Hhid. apply in_or_app. right. left. auto.
      * intros z Hz. rewrite IRFacts.wr_other.
        -- assert (z <> acc) by (intros ->; auto). rewrite F2; auto.
        -- left. intros ->. apply PY. rewrite Hhid. apply in_or_app. auto.
Qed.
