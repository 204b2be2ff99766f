(** Mean, standard deviation and softmax nodes: expansion into several tensor
    nodes, each expanded in turn (expansion_pass.cpp repeats until no library
    node expands). *)
From Coq Require Import List Permutation.
From Verif Require Export Tensor TensorProofs TensorProofs2 TensorProofs3.
From Verif Require Import SymFacts SymProofs1.
Open Scope string_scope.
Open Scope Z_scope.
Import ListNotations.

(** One child after the other, the last one with the block's assignments. *)
Definition child (n : node) (r : seq) : seq := SCons n [] r.

(** reduce_ops/mean_node.cpp:23-130.  [count] is the fresh int64 container
    "_mean_count"; the count is the product over the axes list as given
    (:84-91), so an axis named twice counts twice. *)
Definition mean_count (shape : list expr) (axes : list nat) : expr :=
  fold_left (fun c a => smul c (nth a shape (EInt 1))) axes (EInt 1).
Definition expand_mean (sumc divc : nat) (axes : list Z) (kd : bool) (x y : string) (shape : list expr)
    (vs ws us : list string) (count : string) (tr : assigns) : option seq :=
  match norm_axes (List.length shape) axes with
  | Some ax =>
      let fl := flags (List.length shape) ax in
      Some (child (expand_reduce sumc 0 fl kd x y shape vs ws)
           (SCons (NBlock []) [(count, mean_count shape ax)]
           (SCons (expand_elementwise divc [ATensor y; AScalar count] y (keep (EInt 1) kd fl shape) us) tr SNil)))
  | None => None
  end.

(** Loop variables for the six nested expansions of a standard deviation. *)
Record std_vars := { sv_sq : list string; sv_m1 : list string; sv_m1w : list string; sv_m1u : list string; sv_c1 : string;
  sv_m2 : list string; sv_m2w : list string; sv_m2u : list string; sv_c2 : string;
  sv_p : list string; sv_sub : list string; sv_rt : list string }.
(** reduce_ops/std_node.cpp:28-226: x2 := x*x; m2 := mean x2; m := mean x;
    m := m*m; y := m2 - m; y := sqrt y.  The malloc blocks (:85-134) only
    provide the three buffers and are omitted. *)
Definition expand_std (sumc divc mulc subc sqrtc : nat) (axes : list Z) (kd : bool) (x y x2 m2 m : string)
    (shape : list expr) (v : std_vars) (tr : assigns) : option seq :=
  match norm_axes (List.length shape) axes,
        expand_mean sumc divc axes kd x2 m2 shape (sv_m1 v) (sv_m1w v) (sv_m1u v) (sv_c1 v) [],
        expand_mean sumc divc axes kd x m shape (sv_m2 v) (sv_m2w v) (sv_m2u v) (sv_c2 v) [] with
  | Some ax, Some s1, Some s2 =>
      let os := keep (EInt 1) kd (flags (List.length shape) ax) shape in
      Some (child (expand_elementwise mulc [ATensor x; ATensor x] x2 shape (sv_sq v))
           (sapp s1 (sapp s2
           (child (expand_elementwise mulc [ATensor m; ATensor m] m os (sv_p v))
           (child (expand_elementwise subc [ATensor m2; ATensor m] y os (sv_sub v))
           (SCons (expand_elementwise sqrtc [ATensor y] y os (sv_rt v)) tr SNil))))))
  | _, _, _ => None
  end.

(** reduce_ops/softmax_node.cpp:38-251: max (keepdims), broadcast, subtract,
    exp, sum (keepdims), broadcast, divide.  The malloc block (:117-146) is
    omitted here; see [softmax_alloc].  The broadcasts are bare map nests
    (broadcast_node.cpp inserts with add_map_before).  The block's assignments are dropped
    (:223-240, :250-251): [tr] does not occur in the result. *)
Record sm_vars := { mv_max : list string; mv_maxw : list string; mv_b1 : list string; mv_sub : list string;
  mv_exp : list string; mv_sum : list string; mv_sumw : list string; mv_b2 : list string; mv_div : list string }.
Definition expand_softmax (maxc subc expc sumc divc : nat) (lowest : Z) (axes : list Z) (x y mx mxb sb ex sm smb : string)
    (shape : list expr) (v : sm_vars) (tr : assigns) : option seq :=
  match norm_axes (List.length shape) axes with
  | Some ax =>
      let fl := flags (List.length shape) ax in
      let rs := keep (EInt 1) true fl shape in
      Some (child (expand_reduce maxc lowest fl true x mx shape (mv_max v) (mv_maxw v))
           (sapp (expand_broadcast false mx mxb rs shape (mv_b1 v))
           (child (expand_elementwise subc [ATensor x; ATensor mxb] sb shape (mv_sub v))
           (child (expand_elementwise expc [ATensor sb] ex shape (mv_exp v))
           (child (expand_reduce sumc 0 fl true ex sm shape (mv_sum v) (mv_sumw v))
           (sapp (expand_broadcast false sm smb rs shape (mv_b2 v))
           (child (expand_elementwise divc [ATensor ex; ATensor smb] y shape (mv_div v)) SNil)))))))
  | None => None
  end.
(** softmax_node.cpp:124-131, 142, 146: elements allocated for the max and sum
    buffers; :161, :201 they are then accessed through the type of the output
    edge, i.e. with the strides of the full shape. *)
Definition prodz (l : list Z) : Z := fold_right Z.mul 1 l.
Definition softmax_alloc (fl : list bool) (dims : list Z) : Z := prodz (keep 1 true fl dims).
Fixpoint row_major (dims : list Z) : list Z :=
  match dims with [] => [] | _ :: r => prodz r :: row_major r end.
Definition offset (strides j : list Z) : Z := fold_right Z.add 0 (map (fun p => fst p * snd p) (combine strides j)).

(* ------------------------------------------------------------------ *)
(** Counting. *)
Definition contrib (kd : bool) (fl : list bool) (dims o : list Z) : list (list Z) :=
  filter (fun j => idx_eqb (keep 0 kd fl j) o) (box dims).

Lemma len_flat {A B} (f : A -> list B) l n : (forall a, In a l -> List.length (f a) = n) ->
  List.length (flat_map f l) = (List.length l * n)%nat.
Proof.
  induction l as [|a l IH]; intros H; cbn; auto. rewrite app_length, IH, (H a) by (cbn; auto; intros; apply H; right; auto). auto.
Qed.
Lemma zrange_len d : 0 <= d -> Z.of_nat (List.length (zrange d)) = d.
Proof. intros H. unfold zrange. rewrite map_length, seq_length. lia. Qed.

Lemma contrib_len kd : forall fl dims o, List.length fl = List.length dims -> Forall (Z.le 0) dims ->
  Forall2 (fun d v => 0 <= v < d) (keep 1 kd fl dims) o ->
  Z.of_nat (List.length (contrib kd fl dims o)) = prodz (pick true fl dims).
Proof.
  induction fl as [|c fl IH]; intros [|d dims] o HL Hp Ho; cbn in HL; try discriminate.
  - inversion Ho; subst. reflexivity.
  - injection HL as HL. apply Forall_cons_iff in Hp as [Hd Hp].
    unfold contrib. cbn [box]. rewrite filter_flat.
    rewrite (flat_map_ext' _ (fun v => map (cons v) (filter (fun j => idx_eqb (keep 0 kd (c :: fl) (v :: j)) o) (box dims)))).
    2: { intros v. apply filter_map. }
    destruct c; cbn [keep pick Bool.eqb] in *.
    + set (o' := if kd then tl o else o).
      assert (E : forall v : Z, filter (fun j => idx_eqb (if kd then 0 :: keep 0 kd fl j else keep 0 kd fl j) o) (box dims)
                 = contrib kd fl dims o').
      { intros v. unfold contrib, o'. apply filter_ext. intros j. destruct kd; auto.
        inversion Ho as [|? w ? r Hw Hr]; subst. cbn [tl].
        assert (w = 0) by lia. subst w. cbn [idx_eqb]. rewrite Z.eqb_refl. auto. }
      rewrite (len_flat _ _ (List.length (contrib kd fl dims o'))).
      2: { intros v _. rewrite map_length, (E v). auto. }
      rewrite Nat2Z.inj_mul, zrange_len by auto. rewrite IH; auto.
      unfold o'. destruct kd; auto. inversion Ho; subst; auto.
    + inversion Ho as [|? w ? r Hw Hr]; subst.
      rewrite (flat_select (fun v => map (cons v) (filter (fun j => idx_eqb (v :: keep 0 kd fl j) (w :: r)) (box dims))) w).
      * rewrite map_length. rewrite <- (IH dims r HL Hp Hr). apply f_equal. unfold contrib. apply f_equal.
        apply filter_ext. intros j. cbn [idx_eqb]. rewrite Z.eqb_refl. auto.
      * apply zrange_NoDup.
      * apply zrange_In. auto.
      * intros v _ Hv. rewrite filter_none; auto. intros j _. cbn [idx_eqb].
        destruct (Z.eqb_spec v w); auto. congruence.
Qed.

Lemma pick_filter (p : nat -> bool) (l : list Z) : forall s,
  pick true (map p (List.seq s (List.length l))) l = map (fun i => nth (i - s) l 0) (filter p (List.seq s (List.length l))).
Proof.
  induction l as [|a l IH]; intros s; cbn [List.length List.seq map pick filter]; auto.
  rewrite IH. assert (K : map (fun i => nth (i - S s) l 0) (filter p (List.seq (S s) (List.length l)))
    = map (fun i => nth (i - s) (a :: l) 0) (filter p (List.seq (S s) (List.length l)))).
  { apply map_ext_in. intros i Hi. apply filter_In in Hi as [Hi _]. apply in_seq in Hi.
    replace (i - s)%nat with (S (i - S s)) by lia. auto. }
  rewrite K. destruct (p s); cbn [Bool.eqb map]; auto. rewrite Nat.sub_diag. auto.
Qed.
Lemma prodz_perm l m : Permutation l m -> prodz l = prodz m.
Proof. induction 1; unfold prodz in *; cbn; try lia. Qed.

Lemma count_flags rank ax (dims : list Z) : List.length dims = rank -> NoDup ax -> (forall a, In a ax -> (a < rank)%nat) ->
  prodz (map (fun a => nth a dims 0) ax) = prodz (pick true (flags rank ax) dims).
Proof.
  intros HL Hn Hb. unfold flags. rewrite <- HL, pick_filter. rewrite HL.
  rewrite (map_ext (fun i => nth (i - 0) dims 0) (fun a => nth a dims 0)) by (intros; f_equal; lia).
  apply prodz_perm, Permutation_map, NoDup_Permutation; auto.
  - apply NoDup_filter, seq_NoDup.
  - intros a. rewrite filter_In, in_seq, existsb_exists. split.
    + intros Ha. split; [specialize (Hb a Ha); lia|]. exists a. rewrite Nat.eqb_refl. auto.
    + intros (_ & b & Hb2 & E). apply Nat.eqb_eq in E. congruence.
Qed.
Lemma eval_mul s a b u v : eval s a = Some u -> eval s b = Some v -> eval s (smul a b) = Some (u * v).
Proof. rewrite !eval_ev, ev_smul. intros -> ->. reflexivity. Qed.
Lemma evals_nth s : forall l v a d e, evals s l = Some v -> (a < List.length l)%nat -> eval s (nth a l e) = Some (nth a v d).
Proof.
  induction l as [|x l IH]; intros v a d e E H; cbn in *; [lia|].
  destruct (eval s x) eqn:Ex; [|discriminate]. destruct (evals s l) eqn:El; [|discriminate]. injection E as <-.
  destruct a; cbn; auto. apply IH; auto. lia.
Qed.
Lemma eval_count s shape dims : evals s shape = Some dims -> forall ax c z,
  (forall a, In a ax -> (a < List.length shape)%nat) -> eval s c = Some z ->
  eval s (fold_left (fun c a => smul c (nth a shape (EInt 1))) ax c) = Some (z * prodz (map (fun a => nth a dims 0) ax)).
Proof.
  intros Hd ax. induction ax as [|a ax IH]; intros c z Hb Hc; cbn [fold_left map].
  - rewrite Z.mul_1_r. auto.
  - rewrite (IH _ (z * nth a dims 0)).
    + unfold prodz. cbn [fold_right]. f_equal. lia.
    + intros b Hb2. apply Hb. right; auto.
    + apply eval_mul; auto. apply evals_nth; auto. apply Hb. left; auto.
Qed.
Lemma norm_axes_lt rank : forall axes ax, norm_axes rank axes = Some ax -> forall a, In a ax -> (a < rank)%nat.
Proof.
  induction axes as [|b axes IH]; intros ax H a Ha; cbn in H.
  - injection H as <-. destruct Ha.
  - destruct (norm_axis rank b) as [u|] eqn:E; [|discriminate]. destruct (norm_axes rank axes) as [r|]; [|discriminate].
    injection H as <-. destruct Ha as [<-|Ha]; [|eapply IH; eauto].
    unfold norm_axis in E. destruct ((_ <? 0) || _) eqn:Er; [discriminate|].
    apply orb_false_iff in Er as [E1 E2]. apply Z.ltb_ge in E1. apply Z.leb_gt in E2. injection E as <-. lia.
Qed.

(* ------------------------------------------------------------------ *)
(** Composition: hidden names come from a pool [H] that contains no public name. *)
Definition lv (H : list string) {A} (shape : list A) (vs : list string) : Prop :=
  NoDup vs /\ List.length vs = List.length shape /\ incl vs H.
Definition clear (H : list string) (shape : list expr) (names : list string) : Prop :=
  (forall x, In x names -> ~ In x H) /\
  (forall e x, In e shape -> In x (atoms e) -> ~ In x H /\ ~ In x names).
Definition wrote (H : list string) (y : string) (f : list Z -> Z) (dims : list Z) (st st' : store) : Prop :=
  scattered H y (fun j => j) f st (box dims) st'.

Lemma wrote_mono H H' y f dims st st' : incl H H' -> wrote H y f dims st st' -> wrote H' y f dims st st'.
Proof. intros Hi [A B]. split; auto. Qed.
Lemma wrote_evals H names y f dims shape d st st' : clear H shape names -> In y names -> wrote H y f dims st st' ->
  evals (env_of st) shape = Some d -> evals (env_of st') shape = Some d.
Proof.
  intros [C1 C2] Hy [_ B] E. rewrite <- E. apply evals_eqx with (D := fun z => z = y \/ In z H).
  - intros z k Hz. apply B; tauto.
  - intros z Hz. apply in_concat in Hz as (l & Hl & Hz). apply in_map_iff in Hl as (e & <- & He).
    destruct (C2 e z He Hz) as [K1 K2]. intros [->|K]; auto.
Qed.
Lemma clear_keep H shape names kd fl : clear H shape names -> clear H (keep (EInt 1) kd fl shape) names.
Proof.
  intros [C1 C2]. split; auto. revert fl. induction shape as [|s shape IH]; intros fl e x He Hx.
  - destruct fl as [|[] fl]; destruct He.
  - destruct fl as [|c fl]; [destruct He|]. destruct c; cbn in He.
    + destruct kd; [destruct He as [<-|He]; [destruct Hx|]|]; apply (IH (fun e0 x0 h => C2 e0 x0 (or_intror h)) fl e x He Hx).
    + destruct He as [<-|He]; [apply (C2 s x (or_introl eq_refl) Hx)|apply (IH (fun e0 x0 h => C2 e0 x0 (or_intror h)) fl e x He Hx)].
Qed.

Lemma ew_leg I H names code args y shape vs dims f st :
  clear H shape names -> lv H shape vs -> In y names -> incl (flat_map earg_names args) (names ++ H) ->
  (forall x, In x (flat_map earg_names args) -> ~ In x vs) ->
  (forall x, In (AScalar x) args -> x <> y) ->
  evals (env_of st) shape = Some dims ->
  (forall j, In j (box dims) -> I code (map (earg_val st j) args) = Some (f j)) ->
  exists st', run I (expand_elementwise code args y shape vs) st ONorm st' /\ wrote H y f dims st st'.
Proof.
  intros [C1 C2] (L1 & L2 & L3) Hy Ha Ha2 Hs Hd Hf.
  destruct (elementwise_run I code args y shape vs dims f st) as (st' & R & S); auto.
  - split; auto. split; auto. split; [intros K; apply (C1 y Hy), L3, K|]. split; auto.
    intros e x He Hx. destruct (C2 e x He Hx) as [K1 K2]. split; [intros ->; auto|]. intros K; auto.
  - exists st'. split; [apply R_seq; auto|]. eapply wrote_mono; eauto.
Qed.
Lemma red_leg I H names code g ident fl kd x y shape vs ws dims st :
  (forall v, I 0%nat [v] = Some v) -> (forall a b, I code [a; b] = Some (g a b)) ->
  clear H shape names -> lv H shape vs -> lv H (keep (EInt 1) kd fl shape) ws -> In x names -> In y names -> x <> y ->
  List.length fl = List.length shape -> evals (env_of st) shape = Some dims ->
  exists st', run I (expand_reduce code ident fl kd x y shape vs ws) st ONorm st' /\
    wrote H y (fun o => fold_left (fun acc j => g (st x j) acc) (contrib kd fl dims o) ident) (keep 1 kd fl dims) st st'.
Proof.
  intros H0 HI [C1 C2] (L1 & L2 & L3) (M1 & M2 & M3) Hx Hy Hxy HL Hd.
  assert (Hin : forall z, In z (vs ++ ws) -> In z H) by (intros z Hz; apply in_app_iff in Hz as [K|K]; auto).
  destruct (reduce_run I code g ident fl kd x y shape vs ws dims st) as (st' & R & V & F); auto.
  - intros K. apply (C1 y Hy); auto.
  - intros K. apply (C1 x Hx); auto.
  - intros e z He Hz. destruct (C2 e z He Hz) as [K1 K2]. split; [intros ->; auto|]. intros K; auto.
  - exists st'. split; auto. split.
    + intros j Hj. apply V, box_In, Hj.
    + intros z k Hz [K|K]; apply F; auto. right. intros Hk. apply (K k); auto. apply box_In, Hk.
Qed.
Lemma bc_leg I H names x y in_shape shape vs dims st :
  (forall v, I 0%nat [v] = Some v) ->
  clear H shape names -> lv H shape vs -> In x names -> In y names -> x <> y -> evals (env_of st) shape = Some dims ->
  exists st', runs I (expand_broadcast false x y in_shape shape vs) st ONorm st' /\
    wrote H y (fun j => st x (bcast_idx in_shape j)) dims st st'.
Proof.
  intros H0 [C1 C2] (L1 & L2 & L3) Hx Hy Hxy Hd.
  destruct (broadcast_run I false x y in_shape shape vs dims st) as (st' & R & S); auto.
  - split; auto. split; auto. split; [intros K; apply (C1 y Hy), L3, K|]. split.
    + intros z [<-|[]] K. apply (C1 x Hx); auto.
    + intros e z He Hz. destruct (C2 e z He Hz) as [K1 K2]. split; [intros ->; auto|]. intros K; auto.
  - exists st'. split; auto. eapply wrote_mono; eauto.
Qed.

Lemma mean_leg I H names sumc g divc ax axes kd x y shape vs ws us count s dims f st :
  (forall v, I 0%nat [v] = Some v) -> (forall a b, I sumc [a; b] = Some (g a b)) ->
  norm_axes (List.length shape) axes = Some ax -> NoDup ax ->
  let fl := flags (List.length shape) ax in
  expand_mean sumc divc axes kd x y shape vs ws us count [] = Some s ->
  clear H shape names -> lv H shape vs -> lv H (keep (EInt 1) kd fl shape) ws -> lv H (keep (EInt 1) kd fl shape) us ->
  In count H -> ~ In count us -> In x names -> In y names -> x <> y ->
  evals (env_of st) shape = Some dims -> Forall (Z.le 0) dims ->
  (forall o, In o (box (keep 1 kd fl dims)) ->
     I divc [fold_left (fun acc j => g (st x j) acc) (contrib kd fl dims o) 0; Z.of_nat (List.length (contrib kd fl dims o))] = Some (f o)) ->
  exists st', runs I s st ONorm st' /\ wrote H y f (keep 1 kd fl dims) st st'.
Proof.
  intros H0 HI Ea Hnd fl Es HC Lv Lw Lu Hc Hcu Hx Hy Hxy Hd Hpos Hf.
  unfold expand_mean in Es. rewrite Ea in Es. fold fl in Es. injection Es as <-.
  assert (HL : List.length fl = List.length shape) by (unfold fl, flags; rewrite map_length, seq_length; auto).
  destruct (red_leg I H names sumc g 0 fl kd x y shape vs ws dims st H0 HI HC Lv Lw Hx Hy Hxy HL Hd) as (s1 & R1 & W1).
  assert (Hd1 := wrote_evals _ _ _ _ _ _ _ _ _ HC Hy W1 Hd).
  set (c := prodz (map (fun a => nth a dims 0) ax)).
  assert (Ec : eval (env_of s1) (mean_count shape ax) = Some c).
  { unfold mean_count. rewrite (eval_count _ _ _ Hd1 ax (EInt 1) 1); [unfold c; f_equal; lia| |reflexivity].
    apply norm_axes_lt with (1 := Ea). }
  pose proof (proj1 HC) as C1. pose proof (proj2 HC) as C2.
  set (s2 := wr s1 count [] c).
  assert (Hne : forall z, ~ In z H -> z <> count) by (intros z Hz ->; auto).
  assert (Hd2 : evals (env_of s2) (keep (EInt 1) kd fl shape) = Some (keep 1 kd fl dims)).
  { apply evals_keep; [reflexivity|]. rewrite <- Hd1. apply evals_eqx with (D := fun z => z = count).
    - intros z k Hz. unfold s2. apply IRFacts.wr_other. auto.
    - intros z Hz. apply in_concat in Hz as (l & Hl & Hz). apply in_map_iff in Hl as (e & <- & He).
      destruct (C2 e z He Hz) as [K1 K2]. intros ->. auto. }
  assert (Hy2 : forall j, s2 y j = s1 y j).
  { intros j. unfold s2. apply IRFacts.wr_other. left. apply not_eq_sym, Hne, C1, Hy. }
  destruct (ew_leg I H names divc [ATensor y; AScalar count] y (keep (EInt 1) kd fl shape) us (keep 1 kd fl dims) f s2)
    as (s3 & R3 & W3); auto.
  - apply clear_keep; auto.
  - intros z [<-|[<-|[]]]; apply in_app_iff; auto.
  - intros z [<-|[<-|[]]]; auto. destruct Lu as (_ & _ & L3). intros K. apply (C1 y Hy), L3, K.
  - intros z [K|[K|[]]]; [discriminate|]. injection K as <-. intros ->. apply (C1 y Hy). auto.
  - intros j Hj. cbn [map earg_val]. rewrite Hy2. rewrite (proj1 W1 j Hj).
    unfold s2 at 1. rewrite wr_same. rewrite <- (Hf j Hj). f_equal. f_equal. f_equal.
    rewrite contrib_len; auto.
    + unfold c, fl. apply count_flags; auto. apply evals_length in Hd. auto. apply norm_axes_lt with (1 := Ea).
    + rewrite HL. symmetry. apply evals_length in Hd. auto.
    + apply box_In, Hj.
  - exists s3. split.
    + apply R_cons with (st1 := s1) (st2 := s1); [auto|reflexivity|].
      apply R_cons with (st1 := s1) (st2 := s2); [apply R_block; reflexivity| |].
      * cbn [exec_assigns]. rewrite Ec. reflexivity.
      * apply R_cons with (st1 := s3) (st2 := s3); [auto|reflexivity|apply R_nil].
    + split; [apply W3|]. intros z k Hz K. rewrite (proj2 W3 z k Hz K).
      unfold s2. rewrite IRFacts.wr_other by (left; apply not_eq_sym, Hne, Hz). apply (proj2 W1); auto.
Qed.

Lemma runs_child I n r st st1 o st2 : run I n st ONorm st1 -> runs I r st1 o st2 -> runs I (child n r) st o st2.
Proof. intros A B. apply R_cons with (st1 := st1) (st2 := st1); auto. Qed.
Lemma wrote_other H y f dims st st' z k : wrote H y f dims st st' -> ~ In z H -> z <> y -> st' z k = st z k.
Proof. intros [_ B] Hz Hn. apply B; auto. Qed.
Lemma wrote_ext H y f g dims st st' : (forall j, In j (box dims) -> f j = g j) -> wrote H y f dims st st' -> wrote H y g dims st st'.
Proof. intros E [A B]. split; auto. intros j Hj. rewrite A; auto. Qed.

(** What the mean divides. *)
Definition total (g : Z -> Z -> Z) (kd : bool) (fl : list bool) (dims : list Z) (a : list Z -> Z) (o : list Z) : Z :=
  fold_left (fun acc j => g (a j) acc) (contrib kd fl dims o) 0.
Lemma fold_ext {A} (f g : Z -> A -> Z) l : (forall acc a, In a l -> f acc a = g acc a) -> forall i, fold_left f l i = fold_left g l i.
Proof. induction l as [|a l IH]; intros E i; cbn; auto. rewrite E by (left; auto). apply IH. intros; apply E; right; auto. Qed.
Lemma contrib_In kd fl dims o j : In j (contrib kd fl dims o) -> In j (box dims).
Proof. unfold contrib. rewrite filter_In. tauto. Qed.
Lemma total_ext g kd fl dims a b o : (forall j, In j (box dims) -> a j = b j) -> total g kd fl dims a o = total g kd fl dims b o.
Proof. intros E. apply fold_ext. intros acc j Hj. rewrite E; auto. eapply contrib_In; eauto. Qed.

Ltac names_in := clear; cbn [In]; tauto.
Lemma std_leg I H names sumc g divc mulc mul subc sub sqrtc ax axes kd x y x2 m2 m shape (v : std_vars) s dims f1 f2 f st :
  (forall v, I 0%nat [v] = Some v) -> (forall a b, I sumc [a; b] = Some (g a b)) ->
  (forall a b, I mulc [a; b] = Some (mul a b)) -> (forall a b, I subc [a; b] = Some (sub a b)) ->
  norm_axes (List.length shape) axes = Some ax -> NoDup ax ->
  let fl := flags (List.length shape) ax in
  let os := keep (EInt 1) kd fl shape in
  expand_std sumc divc mulc subc sqrtc axes kd x y x2 m2 m shape v [] = Some s ->
  names = [x; y; x2; m2; m] -> clear H shape names ->
  lv H shape (sv_sq v) -> lv H shape (sv_m1 v) -> lv H shape (sv_m2 v) ->
  lv H os (sv_m1w v) -> lv H os (sv_m1u v) -> lv H os (sv_m2w v) -> lv H os (sv_m2u v) ->
  lv H os (sv_p v) -> lv H os (sv_sub v) -> lv H os (sv_rt v) ->
  In (sv_c1 v) H -> ~ In (sv_c1 v) (sv_m1u v) -> In (sv_c2 v) H -> ~ In (sv_c2 v) (sv_m2u v) ->
  ~ In x [x2; m2; m] -> ~ In y [x2; m2; m] -> NoDup [x2; m2; m] ->
  evals (env_of st) shape = Some dims -> Forall (Z.le 0) dims ->
  (forall o, In o (box (keep 1 kd fl dims)) ->
     I divc [total g kd fl dims (fun j => mul (st x j) (st x j)) o; Z.of_nat (List.length (contrib kd fl dims o))] = Some (f2 o)) ->
  (forall o, In o (box (keep 1 kd fl dims)) ->
     I divc [total g kd fl dims (st x) o; Z.of_nat (List.length (contrib kd fl dims o))] = Some (f1 o)) ->
  (forall o, In o (box (keep 1 kd fl dims)) -> I sqrtc [sub (f2 o) (mul (f1 o) (f1 o))] = Some (f o)) ->
  exists st', runs I s st ONorm st' /\ scattered (H ++ [x2; m2; m]) y (fun j => j) f st (box (keep 1 kd fl dims)) st'.
Proof.
  intros H0 HI Hm Hsb Ea Hnd fl os Es En HC Lsq Lm1 Lm2 Lm1w Lm1u Lm2w Lm2u Lp Lsub Lrt Hc1 Hc1u Hc2 Hc2u Hx Hy HN Hd Hpos F2 F1 F.
  unfold expand_std in Es. rewrite Ea in Es. fold fl os in Es.
  destruct (expand_mean _ _ _ _ x2 _ _ _ _ _ _ _) as [p1|] eqn:E1; [|discriminate].
  destruct (expand_mean _ _ _ _ x _ _ _ _ _ _ _) as [p2|] eqn:E2; [|discriminate]. injection Es as <-.
  pose proof (proj1 HC) as C1.
  assert (Nx : In x names) by (rewrite En; names_in). assert (Ny : In y names) by (rewrite En; names_in).
  assert (Nx2 : In x2 names) by (rewrite En; names_in). assert (Nm2 : In m2 names) by (rewrite En; names_in).
  assert (Nm : In m names) by (rewrite En; names_in).
  assert (HCo : clear H os names) by (apply clear_keep; auto).
  inversion HN as [|? ? A1 HN1]; subst. inversion HN1 as [|? ? A2 HN2]; subst. clear HN HN1 HN2. cbn [In] in *.
  set (names := [x; y; x2; m2; m]) in *.
  assert (DD : x2 <> m2 /\ x2 <> m /\ m2 <> m) by (clear -A1 A2; intuition congruence).
  assert (DX : x <> x2 /\ x <> m2 /\ x <> m) by (clear -Hx; intuition congruence).
  assert (DY : y <> x2 /\ y <> m2 /\ y <> m) by (clear -Hy; intuition congruence).
  destruct DD as (D1 & D2 & D3). destruct DX as (D4 & D5 & D6). destruct DY as (D7 & D8 & D9).
  assert (PV : forall z A (sh : list A) vs, In z names -> lv H sh vs -> ~ In z vs).
  { intros z A sh vs Hz (_ & _ & L) K. apply (C1 z Hz), L, K. }
  (* x2 *)
  destruct (ew_leg I H names mulc [ATensor x; ATensor x] x2 shape (sv_sq v) dims (fun j => mul (st x j) (st x j)) st) as (s1 & R1 & W1); auto.
  { intros z [<-|[<-|[]]]; apply in_app_iff; auto. }
  { intros z [<-|[<-|[]]]; eapply PV; eauto. }
  { intros z [K|[K|[]]]; discriminate. }
  { intros j Hj. apply Hm. }
  assert (Hd1 := wrote_evals _ _ _ _ _ _ _ _ _ HC Nx2 W1 Hd).
  (* mean x2 *)
  destruct (mean_leg I H names sumc g divc ax axes kd x2 m2 shape _ _ _ _ _ dims f2 s1 H0 HI Ea Hnd E1 HC Lm1 Lm1w Lm1u Hc1 Hc1u Nx2 Nm2 D1 Hd1 Hpos) as (s2 & R2 & W2).
  { intros o Ho. rewrite <- F2 by auto. f_equal. f_equal. apply total_ext. intros j Hj. apply (proj1 W1 j Hj). }
  assert (Hd2 := wrote_evals _ _ _ _ _ _ _ _ _ HC Nm2 W2 Hd1).
  (* mean x *)
  assert (X2 : forall j, s2 x j = st x j).
  { intros j. rewrite (wrote_other _ _ _ _ _ _ x j W2), (wrote_other _ _ _ _ _ _ x j W1); auto. }
  destruct (mean_leg I H names sumc g divc ax axes kd x m shape _ _ _ _ _ dims f1 s2 H0 HI Ea Hnd E2 HC Lm2 Lm2w Lm2u Hc2 Hc2u Nx Nm D6 Hd2 Hpos) as (s3 & R3 & W3).
  { intros o Ho. rewrite <- F1 by auto. f_equal. f_equal. apply total_ext. auto. }
  assert (Hd3 := wrote_evals _ _ _ _ _ _ _ _ _ HC Nm W3 Hd2).
  assert (Ho3 : evals (env_of s3) os = Some (keep 1 kd fl dims)) by (apply evals_keep; auto).
  (* m*m *)
  destruct (ew_leg I H names mulc [ATensor m; ATensor m] m os (sv_p v) (keep 1 kd fl dims) (fun o => mul (f1 o) (f1 o)) s3) as (s4 & R4 & W4); auto.
  { intros z [<-|[<-|[]]]; apply in_app_iff; auto. }
  { intros z [<-|[<-|[]]]; eapply PV; eauto. }
  { intros z [K|[K|[]]]; discriminate. }
  { intros j Hj. cbn [map earg_val]. rewrite (proj1 W3 j Hj). auto. }
  assert (Ho4 := wrote_evals _ _ _ _ _ _ _ _ _ HCo Nm W4 Ho3).
  (* y := m2 - m *)
  destruct (ew_leg I H names subc [ATensor m2; ATensor m] y os (sv_sub v) (keep 1 kd fl dims) (fun o => sub (f2 o) (mul (f1 o) (f1 o))) s4) as (s5 & R5 & W5); auto.
  { intros z [<-|[<-|[]]]; apply in_app_iff; auto. }
  { intros z [<-|[<-|[]]]; eapply PV; eauto. }
  { intros z [K|[K|[]]]; discriminate. }
  { intros j Hj. cbn [map earg_val]. rewrite (proj1 W4 j Hj).
    rewrite (wrote_other _ _ _ _ _ _ m2 j W4), (wrote_other _ _ _ _ _ _ m2 j W3), (proj1 W2 j Hj); auto. }
  assert (Ho5 := wrote_evals _ _ _ _ _ _ _ _ _ HCo Ny W5 Ho4).
  (* sqrt *)
  destruct (ew_leg I H names sqrtc [ATensor y] y os (sv_rt v) (keep 1 kd fl dims) f s5) as (s6 & R6 & W6); auto.
  { intros z [<-|[]]; apply in_app_iff; auto. }
  { intros z [<-|[]]; eapply PV; eauto. }
  { intros z [K|[]]; discriminate. }
  { intros j Hj. cbn [map earg_val]. rewrite (proj1 W5 j Hj). auto. }
  exists s6. split.
  - eapply runs_child; eauto. eapply runs_sapp; eauto. eapply runs_sapp; eauto.
    eapply runs_child; eauto. eapply runs_child; eauto. eapply runs_child; eauto. apply R_nil.
  - split; [apply W6|]. intros z k Hz K. rewrite in_app_iff in Hz. cbn [In] in Hz.
    assert (HzA : ~ In z H /\ z <> x2 /\ z <> m2 /\ z <> m) by (clear -Hz; intuition congruence).
    destruct HzA as (HzH & Z1 & Z2 & Z3).
    rewrite (proj2 W6 z k HzH K), (proj2 W5 z k HzH K).
    rewrite (wrote_other _ _ _ _ _ _ z k W4), (wrote_other _ _ _ _ _ _ z k W3), (wrote_other _ _ _ _ _ _ z k W2), (wrote_other _ _ _ _ _ _ z k W1); auto.
Qed.

(** Broadcasting back from the reduced shape undoes [keep]. *)
Lemma bcast_keep s : forall fl shape dims j, List.length fl = List.length shape -> evals s shape = Some dims ->
  Forall2 (fun d v => 0 <= v < d) dims j -> bcast_idx (keep (EInt 1) true fl shape) j = keep 0 true fl j.
Proof.
  induction fl as [|c fl IH]; intros [|e shape] dims j HL Hd Hj; cbn in HL; try discriminate.
  - injection Hd as <-. inversion Hj. auto.
  - cbn in Hd. destruct (eval s e) as [d|] eqn:Ee; [|discriminate]. destruct (evals s shape) as [ds|] eqn:Es; [|discriminate].
    injection Hd as <-. inversion Hj as [|? w ? r Hw Hr]; subst. injection HL as HL.
    destruct c; cbn [keep bcast_idx]; rewrite (IH shape ds r HL Es Hr); auto.
    destruct (expr_eqb e (EInt 1)) eqn:E1; auto. apply expr_eqb_eq in E1. subst e. cbn in Ee. injection Ee as <-.
    f_equal. lia.
Qed.
Lemma keep_in_box : forall fl dims j, List.length fl = List.length dims -> Forall2 (fun d v => 0 <= v < d) dims j ->
  Forall2 (fun d v => 0 <= v < d) (keep 1 true fl dims) (keep 0 true fl j).
Proof.
  induction fl as [|c fl IH]; intros [|d dims] j HL Hj; cbn in HL; try discriminate.
  - constructor.
  - inversion Hj; subst. injection HL as HL. destruct c; cbn [keep]; constructor; auto; lia.
Qed.

Lemma softmax_leg I H names maxc gmax subc sub expc ex0 sumc g divc lowest ax axes x y mx mxb sb ex sm smb shape (v : sm_vars) tr s dims f st :
  (forall v, I 0%nat [v] = Some v) -> (forall a b, I maxc [a; b] = Some (gmax a b)) -> (forall a b, I sumc [a; b] = Some (g a b)) ->
  (forall a b, I subc [a; b] = Some (sub a b)) -> (forall a, I expc [a] = Some (ex0 a)) ->
  norm_axes (List.length shape) axes = Some ax ->
  let fl := flags (List.length shape) ax in
  let rs := keep (EInt 1) true fl shape in
  expand_softmax maxc subc expc sumc divc lowest axes x y mx mxb sb ex sm smb shape v tr = Some s ->
  names = [x; y; mx; mxb; sb; ex; sm; smb] -> clear H shape names ->
  lv H shape (mv_max v) -> lv H rs (mv_maxw v) -> lv H shape (mv_b1 v) -> lv H shape (mv_sub v) -> lv H shape (mv_exp v) ->
  lv H shape (mv_sum v) -> lv H rs (mv_sumw v) -> lv H shape (mv_b2 v) -> lv H shape (mv_div v) ->
  ~ In x [mx; mxb; sb; ex; sm; smb] -> ~ In y [mx; mxb; sb; ex; sm; smb] -> NoDup [mx; mxb; sb; ex; sm; smb] ->
  evals (env_of st) shape = Some dims ->
  let top o := fold_left (fun acc j => gmax (st x j) acc) (contrib true fl dims o) lowest in
  let e j := ex0 (sub (st x j) (top (keep 0 true fl j))) in
  (forall j, In j (box dims) -> I divc [e j; total g true fl dims e (keep 0 true fl j)] = Some (f j)) ->
  exists st', runs I s st ONorm st' /\ scattered (H ++ [mx; mxb; sb; ex; sm; smb]) y (fun j => j) f st (box dims) st'.
Proof.
  intros H0 Hmx Hsm Hsb He Ea fl rs Es En HC L1 L2 L3 L4 L5 L6 L7 L8 L9 Hx Hy HN Hd top e F.
  unfold expand_softmax in Es. rewrite Ea in Es. fold fl rs in Es. injection Es as <-.
  pose proof (proj1 HC) as C1.
  assert (HL : List.length fl = List.length shape) by (unfold fl, flags; rewrite map_length, seq_length; auto).
  assert (HLd : List.length fl = List.length dims) by (rewrite HL; symmetry; apply (evals_length _ _ _ Hd)).
  assert (Nin : forall z, In z [x; y; mx; mxb; sb; ex; sm; smb] -> In z names) by (rewrite En; auto).
  cbn [In] in Nin, Hx, Hy.
  assert (Dn : x <> mx /\ x <> mxb /\ x <> sb /\ x <> ex /\ x <> sm /\ x <> smb) by (clear -Hx; intuition congruence).
  assert (Dy : y <> mx /\ y <> mxb /\ y <> sb /\ y <> ex /\ y <> sm /\ y <> smb) by (clear -Hy; intuition congruence).
  assert (Dt : mx <> mxb /\ mx <> sb /\ mx <> ex /\ mx <> sm /\ mx <> smb /\ mxb <> sb /\ mxb <> ex /\ mxb <> sm /\ mxb <> smb /\
    sb <> ex /\ sb <> sm /\ sb <> smb /\ ex <> sm /\ ex <> smb /\ sm <> smb).
  { clear -HN. repeat (apply NoDup_cons_iff in HN as [? HN]). cbn [In] in *. intuition congruence. }
  clear HN.
  assert (PV : forall z A (sh : list A) vs, In z names -> lv H sh vs -> ~ In z vs).
  { intros z A sh vs Hz (_ & _ & L) K. apply (C1 z Hz), L, K. }
  assert (Nx : In x names) by (apply Nin; clear; tauto). assert (Ny : In y names) by (apply Nin; clear; tauto). assert (Nmx : In mx names) by (apply Nin; clear; tauto).
  assert (Nmxb : In mxb names) by (apply Nin; clear; tauto). assert (Nsb : In sb names) by (apply Nin; clear; tauto). assert (Nex : In ex names) by (apply Nin; clear; tauto).
  assert (Nsm : In sm names) by (apply Nin; clear; tauto). assert (Nsmb : In smb names) by (apply Nin; clear; tauto).
  destruct Dn as (Dx1 & Dx2 & Dx3 & Dx4 & Dx5 & Dx6). destruct Dy as (Dy1 & Dy2 & Dy3 & Dy4 & Dy5 & Dy6).
  destruct Dt as (T1 & T2 & T3 & T4 & T5 & T6 & T7 & T8 & T9 & T10 & T11 & T12 & T13 & T14 & T15).
  (* max *)
  destruct (red_leg I H names maxc gmax lowest fl true x mx shape _ _ dims st H0 Hmx HC L1 L2 Nx Nmx Dx1 HL Hd) as (s1 & R1 & W1).
  assert (Hd1 := wrote_evals _ _ _ _ _ _ _ _ _ HC Nmx W1 Hd).
  (* broadcast *)
  destruct (bc_leg I H names mx mxb rs shape _ dims s1 H0 HC L3 Nmx Nmxb T1 Hd1) as (s2 & R2 & W2).
  assert (Hd2 := wrote_evals _ _ _ _ _ _ _ _ _ HC Nmxb W2 Hd1).
  assert (V2 : forall j, In j (box dims) -> s2 mxb j = top (keep 0 true fl j)).
  { intros j Hj. rewrite (proj1 W2 j Hj). apply box_In in Hj. unfold rs. rewrite (bcast_keep _ fl shape dims j HL Hd Hj).
    apply (proj1 W1). apply box_In, keep_in_box; auto. }
  (* sub *)
  destruct (ew_leg I H names subc [ATensor x; ATensor mxb] sb shape (mv_sub v) dims (fun j => sub (st x j) (top (keep 0 true fl j))) s2) as (s3 & R3 & W3); auto.
  { intros z [<-|[<-|[]]]; apply in_app_iff; auto. }
  { intros z [<-|[<-|[]]]; eapply PV; eauto. }
  { intros z [K|[K|[]]]; discriminate. }
  { intros j Hj. cbn [map earg_val]. rewrite V2 by auto.
    rewrite (wrote_other _ _ _ _ _ _ x j W2), (wrote_other _ _ _ _ _ _ x j W1); auto. }
  assert (Hd3 := wrote_evals _ _ _ _ _ _ _ _ _ HC Nsb W3 Hd2).
  (* exp *)
  destruct (ew_leg I H names expc [ATensor sb] ex shape (mv_exp v) dims e s3) as (s4 & R4 & W4); auto.
  { intros z [<-|[]]; apply in_app_iff; auto. }
  { intros z [<-|[]]; eapply PV; eauto. }
  { intros z [K|[]]; discriminate. }
  { intros j Hj. cbn [map earg_val]. rewrite (proj1 W3 j Hj). rewrite He. auto. }
  assert (Hd4 := wrote_evals _ _ _ _ _ _ _ _ _ HC Nex W4 Hd3).
  (* sum *)
  destruct (red_leg I H names sumc g 0 fl true ex sm shape _ _ dims s4 H0 Hsm HC L6 L7 Nex Nsm T13 HL Hd4) as (s5 & R5 & W5).
  assert (Hd5 := wrote_evals _ _ _ _ _ _ _ _ _ HC Nsm W5 Hd4).
  destruct (bc_leg I H names sm smb rs shape _ dims s5 H0 HC L8 Nsm Nsmb T15 Hd5) as (s6 & R6 & W6).
  assert (Hd6 := wrote_evals _ _ _ _ _ _ _ _ _ HC Nsmb W6 Hd5).
  assert (V6 : forall j, In j (box dims) -> s6 smb j = total g true fl dims e (keep 0 true fl j)).
  { intros j Hj. rewrite (proj1 W6 j Hj). apply box_In in Hj. unfold rs. rewrite (bcast_keep _ fl shape dims j HL Hd Hj).
    rewrite (proj1 W5). 2: { apply box_In, keep_in_box; auto. }
    apply (total_ext g true fl dims (fun j => s4 ex j) e). intros i Hi. apply (proj1 W4 i Hi). }
  (* div *)
  destruct (ew_leg I H names divc [ATensor ex; ATensor smb] y shape (mv_div v) dims f s6) as (s7 & R7 & W7); auto.
  { intros z [<-|[<-|[]]]; apply in_app_iff; auto. }
  { intros z [<-|[<-|[]]]; eapply PV; eauto. }
  { intros z [K|[K|[]]]; discriminate. }
  { intros j Hj. cbn [map earg_val]. rewrite V6 by auto.
    rewrite (wrote_other _ _ _ _ _ _ ex j W6), (wrote_other _ _ _ _ _ _ ex j W5), (proj1 W4 j Hj); auto. }
  exists s7. split.
  - eapply runs_child; eauto. eapply runs_sapp; eauto. eapply runs_child; eauto. eapply runs_child; eauto.
    eapply runs_child; eauto. eapply runs_sapp; eauto. eapply runs_child; eauto. apply R_nil.
  - split; [apply W7|]. intros z k Hz K. rewrite in_app_iff in Hz. cbn [In] in Hz.
    assert (HzA : ~ In z H /\ z <> mx /\ z <> mxb /\ z <> sb /\ z <> ex /\ z <> sm /\ z <> smb) by (clear -Hz; intuition congruence).
    destruct HzA as (HzH & Z1 & Z2 & Z3 & Z4 & Z5 & Z6).
    rewrite (proj2 W7 z k HzH K).
    rewrite (wrote_other _ _ _ _ _ _ z k W6), (wrote_other _ _ _ _ _ _ z k W5), (wrote_other _ _ _ _ _ _ z k W4),
      (wrote_other _ _ _ _ _ _ z k W3), (wrote_other _ _ _ _ _ _ z k W2), (wrote_other _ _ _ _ _ _ z k W1); auto.
Qed.
