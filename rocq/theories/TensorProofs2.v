(** Elementwise nodes, transposition, broadcast. *)
From Coq Require Import FinFun Permutation.
From Verif Require Import Tensor TensorProofs SymFacts SymProofs1.
Open Scope string_scope.
Open Scope Z_scope.
Import ListNotations.

Lemma maps_lvar vs shape : List.length vs = List.length shape -> map lvar (maps vs shape) = vs.
Proof.
  unfold maps. revert shape. induction vs as [|v vs IH]; intros [|e shape] H; cbn in *; try discriminate; auto.
  unfold lvar at 1. cbn. f_equal. apply IH. lia.
Qed.
Lemma fors_lvar vs shape : List.length vs = List.length shape -> map lvar (fors vs shape) = vs.
Proof.
  unfold fors. revert shape. induction vs as [|v vs IH]; intros [|e shape] H; cbn in *; try discriminate; auto.
  unfold lvar at 1. cbn. f_equal. apply IH. lia.
Qed.
Lemma maps_bounds s vs shape dims : List.length vs = List.length shape -> evals s shape = Some dims ->
  Forall2 (fun e d => eval s (lbound e) = Some d) (maps vs shape) dims.
Proof.
  unfold maps. revert vs dims. induction shape as [|e shape IH]; intros [|v vs] dims H E; cbn in *; try discriminate.
  - injection E as <-. constructor.
  - destruct (eval s e) eqn:Ee; [|discriminate]. destruct (evals s shape) eqn:Es; [|discriminate].
    injection E as <-. constructor; auto.
Qed.
Lemma fors_bounds s vs shape dims : List.length vs = List.length shape -> evals s shape = Some dims ->
  Forall2 (fun e d => eval s (lbound e) = Some d) (fors vs shape) dims.
Proof.
  unfold fors. revert vs dims. induction shape as [|e shape IH]; intros [|v vs] dims H E; cbn in *; try discriminate.
  - injection E as <-. constructor.
  - destruct (eval s e) eqn:Ee; [|discriminate]. destruct (evals s shape) eqn:Es; [|discriminate].
    injection E as <-. constructor; auto.
Qed.
Lemma maps_shape vs shape e : In e (maps vs shape) -> In (lbound e) shape.
Proof.
  unfold maps. intros H. apply in_map_iff in H as ([v n] & <- & H). cbn. apply in_combine_r in H; auto.
Qed.
Lemma fors_shape vs shape e : In e (fors vs shape) -> In (lbound e) shape.
Proof.
  unfold fors. intros H. apply in_map_iff in H as ([v n] & <- & H). cbn. apply in_combine_r in H; auto.
Qed.
Lemma evals_syms st vs idx : Forall2 (fun v z => st v [] = z) vs idx -> evals (env_of st) (syms vs) = Some idx.
Proof.
  intros H. induction H as [|v z vs idx Hv H IH]; [auto|]. cbn [syms map evals] in *.
  change (map ESym vs) with (syms vs). rewrite IH. unfold eval. cbn [ev]. unfold env_of at 1. rewrite Hv. auto.
Qed.
Lemma evals_length s l v : evals s l = Some v -> List.length v = List.length l.
Proof.
  revert v. induction l as [|e l IH]; intros v E; cbn in E.
  - injection E as <-. auto.
  - destruct (eval s e); [|discriminate]. destruct (evals s l) eqn:E1; [|discriminate]. injection E as <-.
    cbn. f_equal. auto.
Qed.

(** Facts common to all the nests with one map per dimension. *)
Definition frame (vs : list string) (shape : list expr) (y : string) (xs : list string) : Prop :=
  NoDup vs /\ List.length vs = List.length shape /\ ~ In y vs /\ (forall x, In x xs -> ~ In x vs) /\
  (forall e x, In e shape -> In x (atoms e) -> x <> y /\ ~ In x vs).

Lemma scatter_maps I b vs shape dims y xs g f st0 :
  frame vs shape y xs -> evals (env_of st0) shape = Some dims ->
  (forall j j', In j (box dims) -> In j' (box dims) -> g j = g j' -> j = j') ->
  (forall done idx rest st, box dims = (done ++ idx :: rest)%list -> scattered vs y g f st0 done st ->
    Forall2 (fun v z => st v [] = z) vs idx -> evals (env_of st) (syms vs) = Some idx ->
    exists st', exec_block I st b = Some st' /\ st' y (g idx) = f idx /\
      (forall z k, (z <> y \/ k <> g idx) -> st' z k = st z k)) ->
  exists st', runs I (nest (maps vs shape) (single b)) st0 ONorm st' /\ scattered vs y g f st0 (box dims) st'.
Proof.
  intros (Hnd & Hlen & Hy & Hxs & Ha) Hd Hg Hb.
  assert (Hl := maps_lvar vs shape Hlen).
  apply scatter; auto.
  - rewrite Hl; auto.
  - rewrite Hl. apply incl_refl.
  - apply maps_bounds; auto.
  - intros e x He Hx. apply maps_shape in He. apply (Ha _ _ He Hx).
  - intros done idx rest st Hbox HQ Hv. rewrite Hl in *.
    destruct (Hb done idx rest st Hbox HQ Hv (evals_syms _ _ _ Hv)) as (st' & E & Ey & Eo).
    exists st'. repeat split; auto. intros v Hv'. apply Eo. left. intros ->. auto.
Qed.

(* ------------------------------------------------------------------ *)
Definition earg_val (st : store) (j : list Z) (a : earg) : Z :=
  match a with ATensor x => st x j | AScalar x => st x [] | AConst z => z end.
Definition earg_names (a : earg) : list string :=
  match a with ATensor x | AScalar x => [x] | AConst _ => [] end.

Lemma ew_reads f st st0 vs y idx done args :
  scattered vs y (fun j => j) f st0 done st -> ~ In idx done ->
  (forall x, In x (flat_map earg_names args) -> ~ In x vs) ->
  (forall x, In (AScalar x) args -> x <> y) ->
  evals (env_of st) (syms vs) = Some idx ->
  reads_in st (map (earg_in vs) args) = Some (map (earg_val st0 idx) args).
Proof.
  intros [H1 H2] Hni Hv Hs E. induction args as [|a args IH]; [auto|]. cbn [map reads_in].
  rewrite IH.
  2: { intros x Hx. apply Hv. cbn. apply in_or_app; auto. }
  2: { intros x Hx. apply Hs. right; auto. }
  destruct a as [x|x|z]; cbn [earg_in read_in earg_val].
  - rewrite E. rewrite H2; auto.
    + apply Hv. left; auto.
    + right. intros j Hj ->. auto.
  - cbn [evals]. rewrite H2; auto.
    + apply Hv. left; auto.
    + left. apply Hs. left; auto.
  - auto.
Qed.
Lemma box_split_fresh dims done idx rest : box dims = (done ++ idx :: rest)%list -> ~ In idx done /\ In idx (box dims).
Proof.
  intros H. split.
  - pose proof (box_NoDup dims) as N. rewrite H in N. apply NoDup_remove_2 in N.
    intros K. apply N. apply in_or_app; auto.
  - rewrite H. apply in_or_app; right; left; auto.
Qed.

Lemma elementwise_run I code args y shape vs dims f st0 :
  frame vs shape y (flat_map earg_names args) -> (forall x, In (AScalar x) args -> x <> y) ->
  evals (env_of st0) shape = Some dims ->
  (forall j, In j (box dims) -> I code (map (earg_val st0 j) args) = Some (f j)) ->
  exists st', runs I (nest (maps vs shape) (single (ew_body code args y vs))) st0 ONorm st' /\
    scattered vs y (fun j => j) f st0 (box dims) st'.
Proof.
  intros HF Hs Hd Hf. apply scatter_maps with (xs := flat_map earg_names args); auto.
  intros done idx rest st Hbox HQ Hv E.
  destruct (box_split_fresh _ _ _ _ Hbox) as [Hni Hin].
  exists (wr st y idx (f idx)). split; [|split].
  - unfold ew_body. cbn [exec_block exec_op o_ins o_code o_sub o_out].
    unfold exec_op. cbn [o_ins o_code o_sub o_out].
    rewrite (ew_reads f st st0 vs y idx done args HQ Hni); auto; [|apply HF].
    rewrite E, Hf; auto.
  - apply wr_same.
  - intros z k K. apply wr_other. destruct K as [K|K]; [left|right]; auto.
Qed.

(** Chains. *)
Fixpoint chain_val (I : nat -> list Z -> option Z) (av : earg -> Z) (v : Z) (l : list link) : option Z :=
  match l with
  | [] => Some v
  | (c, args) :: r =>
      match I c (map (fun a => match a with Cur => v | CArg e => av e end) args) with
      | Some w => chain_val I av w r
      | None => None
      end
  end.
Definition link_args (l : list link) : list earg :=
  flat_map (fun p => flat_map (fun a => match a with Cur => [] | CArg e => [e] end) (snd p)) l.

Lemma chain_reads st cur vs idx args av :
  evals (env_of st) (syms vs) = Some idx ->
  (forall e, In (CArg e) args -> read_in st (earg_in vs e) = Some (av e)) ->
  reads_in st (map (carg_in cur vs) args) = Some (map (fun a => match a with Cur => st cur idx | CArg e => av e end) args).
Proof.
  intros E H. induction args as [|a args IH]; [auto|]. cbn [map reads_in].
  rewrite IH by (intros e He; apply H; right; auto).
  destruct a as [|e]; cbn [carg_in].
  - cbn [read_in]. rewrite E. auto.
  - rewrite H by (left; auto). auto.
Qed.
Lemma chain_exec I y vs idx av : forall l cur st w,
  ~ In y vs -> evals (env_of st) (syms vs) = Some idx -> Forall2 (fun v z => st v [] = z) vs idx ->
  (forall st', (forall z k, z <> y -> st' z k = st z k) ->
     forall e, In e (link_args l) -> read_in st' (earg_in vs e) = Some (av e)) ->
  l <> [] -> chain_val I av (st cur idx) l = Some w ->
  exists st', exec_block I st (chain_body cur y vs l) = Some st' /\ st' y idx = w /\
    (forall z k, (z <> y \/ k <> idx) -> st' z k = st z k).
Proof.
  induction l as [|[c args] l IH]; intros cur st w Hy E Hv Ha Hne Hc; [congruence|].
  cbn [chain_val] in Hc. cbn [chain_body exec_block].
  destruct (I c _) as [u|] eqn:EI; [|discriminate].
  unfold exec_op at 1. cbn [o_ins o_code o_sub o_out].
  rewrite (chain_reads st cur vs idx args av E).
  2: { intros e He. apply Ha; auto. unfold link_args. cbn. apply in_or_app. left.
       apply in_flat_map. exists (CArg e). split; [auto|left; auto]. }
  rewrite E, EI.
  assert (Hv' : Forall2 (fun v z => wr st y idx u v [] = z) vs idx).
  { apply (Forall2_stable vs idx st); auto. intros v Hiv. apply wr_other. left. intros ->. auto. }
  destruct l as [|k l].
  - cbn in Hc. injection Hc as <-. exists (wr st y idx u). cbn [chain_body exec_block]. split; [auto|]. split; [apply wr_same|].
    intros z j K. apply wr_other. destruct K as [K|K]; [left|right]; auto.
  - destruct (IH y (wr st y idx u) w) as (st' & E' & Ey & Eo); auto.
    + apply evals_syms; auto.
    + intros st' K e He. apply Ha.
      * intros z j Hz. rewrite K; auto. apply wr_other. left. auto.
      * unfold link_args in *. cbn. apply in_or_app. right. auto.
    + congruence.
    + rewrite wr_same. auto.
    + exists st'. split; [auto|]. split; [auto|]. intros z j K. rewrite Eo; auto. apply wr_other.
      destruct K as [K|K]; [left|right]; auto.
Qed.
Lemma chain_run I l x y shape vs dims f st0 :
  frame vs shape y (x :: flat_map earg_names (link_args l)) ->
  (forall a, In a (link_args l) -> ~ In y (earg_names a)) -> l <> [] ->
  evals (env_of st0) shape = Some dims ->
  (forall j, In j (box dims) -> chain_val I (earg_val st0 j) (st0 x j) l = Some (f j)) ->
  exists st', runs I (nest (maps vs shape) (single (chain_body x y vs l))) st0 ONorm st' /\
    scattered vs y (fun j => j) f st0 (box dims) st'.
Proof.
  intros HF Hs Hne Hd Hf. apply scatter_maps with (xs := x :: flat_map earg_names (link_args l)); auto.
  intros done idx rest st Hbox HQ Hv E.
  destruct (box_split_fresh _ _ _ _ Hbox) as [Hni Hin].
  destruct HF as (Hnd & Hlen & Hy & Hxs & Ha). destruct HQ as [H1 H2].
  apply (chain_exec I y vs idx (earg_val st0 idx)); auto.
  - intros st' K e He.
    assert (Hz : forall z, In z (earg_names e) -> ~ In z vs /\ z <> y).
    { intros z Hz. split; [apply Hxs; right; apply in_flat_map; exists e; auto|]. intros ->. apply (Hs e); auto. }
    assert (Hv' : Forall2 (fun v z => st' v [] = z) vs idx).
    { apply (Forall2_stable vs idx st); auto. intros v Hiv. apply K. intros ->. auto. }
    destruct e as [z|z|z]; cbn [earg_in read_in earg_val]; auto.
    + rewrite (evals_syms _ _ _ Hv'). destruct (Hz z (or_introl eq_refl)). rewrite K, H2; auto.
    + cbn [evals]. destruct (Hz z (or_introl eq_refl)). rewrite K, H2; auto.
  - rewrite H2; auto.
    + apply Hxs. left; auto.
    + right. intros j Hj ->. auto.
Qed.

(* ------------------------------------------------------------------ *)
(** Transposition. *)
Lemma permute_eval st vs idx perm : Forall2 (fun v z => st v [] = z) vs idx ->
  evals (env_of st) (permute (EInt 0) perm (syms vs)) = Some (permute 0 perm idx).
Proof.
  intros H. induction perm as [|k perm IH]; [auto|]. unfold permute in *. cbn [map evals]. rewrite IH.
  assert (E : eval (env_of st) (nth k (syms vs) (EInt 0)) = Some (nth k idx 0)).
  { clear IH. revert k. induction H as [|v z vs idx Hv H IH]; intros k.
    - destruct k; auto.
    - destruct k as [|k]; cbn [syms map nth]; [|apply IH]. unfold eval. cbn [ev]. unfold env_of. rewrite Hv. auto. }
  rewrite E. auto.
Qed.
Lemma permute_inj perm n (j j' : list Z) : Permutation perm (List.seq 0 n) -> List.length j = n -> List.length j' = n ->
  permute 0 perm j = permute 0 perm j' -> j = j'.
Proof.
  intros P L L' E. apply nth_ext with (d := 0) (d' := 0); [congruence|].
  intros k Hk. assert (Hin : In k perm).
  { apply (Permutation_in k (Permutation_sym P)). apply in_seq. lia. }
  clear -E Hin. unfold permute in E. induction perm as [|p perm IH]; [destruct Hin|].
  cbn in E. injection E as E1 E2. destruct Hin as [->|Hin]; auto.
Qed.
Lemma transpose_run I perm x y shape vs dims st0 :
  (forall v, I 0%nat [v] = Some v) ->
  frame vs shape y [x] -> x <> y -> Permutation perm (List.seq 0 (List.length shape)) ->
  evals (env_of st0) shape = Some dims ->
  exists st', runs I (nest (maps vs shape) (single [{| o_code := 0; o_ins := [ORead x (syms vs)]; o_out := y; o_sub := permute (EInt 0) perm (syms vs) |}])) st0 ONorm st' /\
    scattered vs y (permute 0 perm) (fun j => st0 x j) st0 (box dims) st'.
Proof.
  intros H0 HF Hxy HP Hd. apply scatter_maps with (xs := [x]); auto.
  - intros j j' Hj Hj' E. apply permute_inj with (perm := perm) (n := List.length shape); auto.
    + rewrite (box_length _ _ Hj). eapply evals_length; eauto.
    + rewrite (box_length _ _ Hj'). eapply evals_length; eauto.
  - intros done idx rest st Hbox HQ Hv E.
    exists (wr st y (permute 0 perm idx) (st0 x idx)). split; [|split].
    + cbn [exec_block]. unfold exec_op. cbn [o_ins o_code o_sub o_out reads_in read_in].
      rewrite E, (permute_eval st vs idx perm Hv), H0.
      replace (st x idx) with (st0 x idx); auto.
      destruct HQ as [_ H2]. symmetry. apply H2; [|auto].
      destruct HF as (_ & _ & _ & Hx & _). apply Hx. left; auto.
    + apply wr_same.
    + intros z k K. apply wr_other. destruct K as [K|K]; [left|right]; auto.
Qed.

Lemma default_perm_rev n : Permutation (default_perm n) (List.seq 0 n).
Proof.
  unfold default_perm. apply Permutation_sym. apply NoDup_Permutation_bis.
  - apply seq_NoDup.
  - rewrite map_length. auto.
  - intros k Hk. apply in_seq in Hk. apply in_map_iff. exists (n - 1 - k)%nat. split; [lia|]. apply in_seq. lia.
Qed.
Lemma permute_default (j : list Z) : permute 0 (default_perm (List.length j)) j = rev j.
Proof.
  apply nth_ext with (d := 0) (d' := 0).
  - unfold permute, default_perm. rewrite !map_length, seq_length, rev_length. auto.
  - unfold permute, default_perm. intros k Hk. rewrite !map_length, seq_length in Hk.
    rewrite map_map.
    rewrite nth_indep with (d' := (fun i => nth (List.length j - 1 - i) j 0) 0%nat).
    2: { rewrite map_length, seq_length. auto. }
    rewrite (map_nth (fun i => nth (List.length j - 1 - i) j 0)).
    rewrite seq_nth by auto. rewrite rev_nth by auto.
    replace (List.length j - S k)%nat with (List.length j - 1 - (0 + k))%nat by lia. auto.
Qed.

(* ------------------------------------------------------------------ *)
(** Broadcast. *)
Fixpoint bcast_idx (in_shape : list expr) (j : list Z) : list Z :=
  match in_shape, j with
  | e :: r, v :: j' => (if expr_eqb e (EInt 1) then 0 else v) :: bcast_idx r j'
  | _, _ => []
  end.
Lemma bcast_eval st in_shape vs idx : Forall2 (fun v z => st v [] = z) vs idx ->
  evals (env_of st) (bcast_sub in_shape vs) = Some (bcast_idx in_shape idx).
Proof.
  intros H. revert in_shape. induction H as [|v z vs idx Hv H IH]; intros [|e r]; auto.
  cbn [bcast_sub bcast_idx evals]. rewrite IH. destruct (expr_eqb e (EInt 1)); auto.
  unfold eval. cbn [ev]. unfold env_of. rewrite Hv. auto.
Qed.
Lemma broadcast_run I scalar x y in_shape shape vs dims st0 :
  (forall v, I 0%nat [v] = Some v) ->
  frame vs shape y [x] -> x <> y -> evals (env_of st0) shape = Some dims ->
  exists st', runs I (expand_broadcast scalar x y in_shape shape vs) st0 ONorm st' /\
    scattered vs y (fun j => j) (fun j => st0 x (if scalar then [] else bcast_idx in_shape j)) st0 (box dims) st'.
Proof.
  intros H0 HF Hxy Hd. apply scatter_maps with (xs := [x]); auto.
  intros done idx rest st Hbox HQ Hv E.
  exists (wr st y idx (st0 x (if scalar then [] else bcast_idx in_shape idx))). split; [|split].
  - cbn [exec_block]. unfold exec_op. cbn [o_ins o_code o_sub o_out reads_in read_in].
    assert (Ex : evals (env_of st) (if scalar then [] else bcast_sub in_shape vs) =
                 Some (if scalar then [] else bcast_idx in_shape idx)).
    { destruct scalar; [auto|apply bcast_eval; auto]. }
    rewrite Ex, E, H0.
    match goal with |- Some (wr _ _ _ ?a) = Some (wr _ _ _ ?b) => replace a with b; auto end.
    destruct HQ as [_ H2]. symmetry. apply H2; [|auto].
    destruct HF as (_ & _ & _ & Hx & _). apply Hx. left; auto.
  - apply wr_same.
  - intros z k K. apply wr_other. destruct K as [K|K]; [left|right]; auto.
Qed.
