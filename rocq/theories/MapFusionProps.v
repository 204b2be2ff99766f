(** * C54: MapFusion *)
From Coq Require Import ZArith List Bool Ascii String Lia.
From Verif Require Import Sym SymFacts SymFuns SymProofs1 SymProofs4 IR IRFacts PassCFGProps LoopTile LoopIter Interchange Skew TypesProofs LoopProps While2For While2ForProofs MapFusion.
From Verif Require Delin.
Import ListNotations.
Local Open Scope string_scope.
Local Open Scope list_scope.
Local Open Scope Z_scope.

(* ---------------------------------------------------------------- *)
(** * Specification *)
(** The array elements a sequence of blocks reads, with their subsets. *)
Fixpoint accesses (s : seq) : list (string * list expr) :=
  match s with
  | SNil => []
  | SCons (NBlock b) _ r => concat (map (fun o => concat (map (fun p => match p with ORead x l => [(x, l)] | _ => [] end) (o_ins o))) b) ++ accesses r
  | SCons _ _ r => accesses r
  end.
(** A map [for i = init1; c1; i = u1: pb] followed by a loop over [j] with body [body]. *)
Record pair_of_loops := Pair { p_i : string; p_init1 : expr; p_c1 : cond; p_u1 : expr; p_block : block;
  p_kind : kind; p_j : string; p_init2 : expr; p_c2 : cond; p_u2 : expr; p_body : seq }.
Definition first (p : pair_of_loops) : node := NLoop KMap (p_i p) (p_init1 p) (p_c1 p) (p_u1 p) (SCons (NBlock (p_block p)) [] SNil).
Definition second_loop (p : pair_of_loops) : node := NLoop (p_kind p) (p_j p) (p_init2 p) (p_c2 p) (p_u2 p) (p_body p).
Definition program (n1 n2 : node) : seq := SCons n1 [] (SCons n2 [] SNil).

Section SPEC.
  Variable sc : string -> bool.     (* scalar containers *)
  Variable p : pair_of_loops.
  Definition outs : list string := map o_out (p_block p).
  (** the scalars the first map computes with *)
  Definition private : list string := filter sc outs.
  (** what it reads from outside *)
  Definition outside (x : string) : Prop := In x (block_reads (p_block p)) /\ x <> p_i p /\ ~ In x private.
  (** The first map reads its scalars only after it has written them, reads no array it
      writes, writes each array once; the second loop changes nothing the first one reads
      or writes and does not use its scalars. *)
  Record independent : Prop := {
    ind_first : ok_block (p_i p) private outside [] (p_block p);
    ind_access : forall o q l, In o (p_block p) -> In q (o_ins o) -> q <> ORead (p_i p) l;
    ind_stable1 : stable (p_i p) (p_c1 p) (p_u1 p) (SCons (NBlock (p_block p)) [] SNil);
    ind_stable2 : stable (p_j p) (p_c2 p) (p_u2 p) (p_body p);
    ind_index : ~ In (p_i p) (swrites (p_body p));
    ind_reads : forall x, outside x -> ~ In x (swrites (p_body p)) /\ x <> p_j p;
    ind_writes : forall x, In x outs -> ~ In x (swrites (p_body p)) /\ x <> p_j p /\ ~ In x (atoms (p_init2 p) ++ catoms (p_c2 p) ++ atoms (p_u2 p));
    ind_private : forall x, In x private -> ~ In x (sreads (p_body p));
    ind_subsets : forall x e y, In (x, [e]) (accesses (p_body p)) -> In x outs -> In y (atoms e) -> ~ In y outs /\ ~ In y (swrites (p_body p)) }.
  (** From [st]: different index values write different elements, ... *)
  Definition distinct (st : store) : Prop := forall o v w idx, In o (p_block p) -> sc (o_out o) = false -> v <> w ->
    evals (upd (env_of st) (p_i p) v) (o_sub o) = Some idx -> evals (upd (env_of st) (p_i p) w) (o_sub o) <> Some idx.
  Definition steps (st : store) : Prop := forall o e a b, In o (p_block p) -> sc (o_out o) = false -> o_sub o = [e] -> affine (p_i p) e = Some (a, b) -> eval (env_of st) a <> Some 0.
  (** ... and whatever element of an array of the first map the second loop reads was
      written there for some index value. *)
  Definition covered (st : store) : Prop := forall v0 vs e w0 ws f,
    eval (env_of st) (p_init1 p) = Some v0 -> trip (env_of st) (p_i p) (p_c1 p) (p_u1 p) v0 vs e ->
    eval (upd (env_of st) (p_i p) e) (p_init2 p) = Some w0 -> trip (upd (env_of st) (p_i p) e) (p_j p) (p_c2 p) (p_u2 p) w0 ws f ->
    forall w x r, In w ws -> In (x, [r]) (accesses (p_body p)) -> In x outs -> sc x = false ->
    exists v z o, In v vs /\ eval (upd (upd (env_of st) (p_i p) e) (p_j p) w) r = Some z /\
      In o (p_block p) /\ o_out o = x /\ evals (upd (env_of st) (p_i p) v) (o_sub o) = Some [z].
End SPEC.
(** New names, and orders in which sets may be enumerated. *)
Definition fresh_names (tmp : nat -> string) (p : pair_of_loops) : Prop :=
  (forall m n, tmp m = tmp n -> m = n) /\ forall n, ~ In (tmp n) (nnames (first p)) /\ ~ In (tmp n) (nnames (second_loop p)).
Definition enumerates {A} (f : list A -> list A) : Prop := forall l x, In x (f l) <-> In x l.

(* ---------------------------------------------------------------- *)
(** * What an accepted pair looks like *)
Lemma all_some_in {X} (l : list (option X)) : forall r, all_some l = Some r -> forall x, In x r -> In (Some x) l.
Proof.
  induction l as [|[y|] l IH]; simpl; intros r H x Hx; try discriminate; [injection H as <-; destruct Hx|].
  destruct (all_some l) as [r'|]; [|discriminate]. injection H as <-. destruct Hx as [<-|Hx]; [auto|]. right. eapply IH; eauto.
Qed.
Lemma number_in tmp l : forall n k, In k (number tmp n l) -> In (k_cont k, (k_sub k, k_map k)) l /\ exists m, (n <= m)%nat /\ k_tmp k = tmp m.
Proof.
  induction l as [|[A [e m]] l IH]; intros n k H; [destruct H|]. destruct H as [<-|H]; [split; [left; reflexivity|exists n; auto]|].
  destruct (IH (S n) k H) as (H1 & q & H2 & H3). split; [right; exact H1|]. exists q. split; [lia|exact H3].
Qed.
Lemma number_nodup tmp l : (forall m n, tmp m = tmp n -> m = n) -> forall n, NoDup (map k_tmp (number tmp n l)).
Proof.
  intros J. induction l as [|[A [e m]] l IH]; intros n; [constructor|]. cbn [number map]. constructor; [|apply IH]. cbn [k_tmp]. intros H. apply in_map_iff in H as (k & Q & Hk).
  destruct (number_in tmp l (S n) k Hk) as (_ & q & H2 & H3). rewrite H3 in Q. apply J in Q. lia.
Qed.
Lemma in_subs_in A l : forall es e, in_subs A l = Some es -> In e es -> In (ORead A [e]) l.
Proof.
  induction l as [|[z|x s] l IH]; simpl; intros es e H He; [injection H as <-; destruct He|right; eauto|].
  destruct (String.eqb_spec x A) as [->|N]; [|right; eauto]. destruct s as [|e0 [|]]; try discriminate. destruct (in_subs A l) as [es'|]; [|discriminate]. injection H as <-.
  destruct He as [<-|He]; [auto|]. right. eauto.
Qed.
Lemma block_subs_in A b : forall es e, block_subs A b = Some es -> In e es -> exists o, In o b /\ In (ORead A [e]) (o_ins o).
Proof.
  induction b as [|o b IH]; simpl; intros es e H He; [injection H as <-; destruct He|]. destruct (String.eqb (o_out o) A); [discriminate|].
  destruct (in_subs A (o_ins o)) as [e1|] eqn:E1; [|discriminate]. destruct (block_subs A b) as [e2|] eqn:E2; [|discriminate]. injection H as <-.
  apply in_app_or in He as [He|He]; [exists o; split; [auto|eapply in_subs_in; eauto]|]. destruct (IH _ _ eq_refl He) as (q & Q1 & Q2). exists q. auto.
Qed.
Lemma seq_subs_in A s : forall es e, seq_subs A s = Some es -> In e es -> In (A, [e]) (accesses s).
Proof.
  induction s as [|m a r IH]; simpl; intros es e H He; [injection H as <-; destruct He|]. destruct m; try discriminate.
  destruct (block_subs A b) as [e1|] eqn:E1; [|discriminate]. destruct (seq_subs A r) as [e2|] eqn:E2; [|discriminate]. injection H as <-.
  apply in_or_app. apply in_app_or in He as [He|He]; [left|right; eauto]. destruct (block_subs_in _ _ _ _ E1 He) as (o & Q1 & Q2).
  rewrite <- flat_map_concat_map. apply in_flat_map. exists o. split; [exact Q1|]. rewrite <- flat_map_concat_map. apply in_flat_map. exists (ORead A [e]). split; [exact Q2|]. left. reflexivity.
Qed.
Lemma seq_subs_blocks A s : forall es, seq_subs A s = Some es -> blocks_only s.
Proof.
  induction s as [|m a r IH]; simpl; intros es H; [exact Logic.I|]. destruct m; try discriminate.
  destruct (block_subs A b); [|discriminate]. destruct (seq_subs A r) as [e2|]; [|discriminate]. eapply IH. reflexivity.
Qed.
Lemma producer_in A pb e : producer A pb = Some e -> exists o, In o pb /\ o_out o = A /\ o_sub o = [e].
Proof.
  unfold producer. destruct (existsb _ pb); [discriminate|]. destruct (filter (fun o => String.eqb (o_out o) A) pb) as [|o [|]] eqn:E; try discriminate.
  destruct (o_sub o) as [|e0 [|]] eqn:ES; try discriminate. intros H. injection H as <-. assert (In o (filter (fun o => String.eqb (o_out o) A) pb)) as Ho by (rewrite E; left; reflexivity).
  apply filter_In in Ho as [H1 H2]. apply String.eqb_eq in H2. eauto.
Qed.
Lemma atoms_sym_div l r e y : sym_div l r = Some e -> In y (atoms e) -> In y (atoms l) \/ In y (atoms r).
Proof.
  unfold sym_div. intros H Hy. destruct (expr_eqb r (EInt 0)); [injection H as <-; simpl in Hy; apply in_app_or in Hy; exact Hy|].
  destruct (expr_eqb r (EInt 1)); [injection H as <-; auto|]. destruct (expr_eqb l (EInt 0)); [injection H as <-; destruct Hy|].
  assert (G: Some (EIdiv l r) = Some e -> In y (atoms l) \/ In y (atoms r)) by (intros Q; injection Q as <-; simpl in Hy; apply in_app_or in Hy; exact Hy).
  destruct l; auto. destruct r; auto. destruct (as_int z); [|discriminate]. destruct (as_int z0); [|discriminate]. destruct (long_div z1 z2); [|discriminate]. injection H as <-. destruct Hy.
Qed.
Lemma accesses_reads s : forall x l, In (x, l) (accesses s) -> forall y, In y (concat (map atoms l)) -> In y (sreads s).
Proof.
  induction s as [|m a r IH]; intros x l H y Hy; [destruct H|]. simpl. rewrite !in_app_iff. destruct m; cbn [accesses] in H; try (right; right; eapply IH; eauto; fail).
  apply in_app_or in H as [H|H]; [left|right; right; eapply IH; eauto]. cbn [nreads]. unfold block_reads. rewrite <- flat_map_concat_map in *. apply in_flat_map in H as (o & Ho & H).
  apply in_flat_map. exists o. split; [exact Ho|]. apply in_or_app. left. rewrite <- flat_map_concat_map in *. apply in_flat_map in H as (q & Hq & H). apply in_flat_map. exists q. split; [exact Hq|].
  destruct q as [z|x' l']; [destruct H|]. destruct H as [H|[]]. injection H as -> ->. right. rewrite ?flat_map_concat_map in *. exact Hy.
Qed.
Section ACC.
  Variables (sc : string -> bool) (tmp : nat -> string) (order : list expr -> list expr) (orderS : list string -> list string).
  Hypothesis OE : enumerates order.
  Hypothesis OS : enumerates orderS.
  Lemma candidate_facts i j n1 n2 pb body ks : candidates sc tmp order orderS i j n1 n2 pb body = Some ks ->
    ks <> [] /\ (forall k, In k ks -> sc (k_cont k) = false /\ In (k_cont k, [k_sub k]) (accesses body) /\ (exists m, k_tmp k = tmp m) /\ blocks_only body /\
      exists o e a b, In o pb /\ o_out o = k_cont k /\ o_sub o = [e] /\ affine i e = Some (a, b) /\ sym_div (ssub (k_sub k) b) a = Some (k_map k)).
  Proof.
    unfold candidates. destruct (all_some _) as [l|] eqn:E; [|discriminate]. intros H. destruct (number tmp 0 (concat l)) as [|k0 r] eqn:EN; [discriminate|].
    injection H as <-. rewrite <- EN. split; [rewrite EN; discriminate|]. intros k Hk. apply number_in in Hk as (Hk & m & _ & Hm).
    apply in_concat in Hk as (l1 & H1 & Hk). apply (all_some_in _ _ E) in H1. apply in_map_iff in H1 as (A & EA & HA). apply (proj1 (OS _ _)) in HA. apply filter_In in HA as [HA1 HA2]. apply andb_true_iff in HA2 as [HA2 _]. apply negb_true_iff in HA2.
    destruct (candidates_of sc order i j n1 n2 pb body A) as [l2|] eqn:EC; [|discriminate]. injection EA as <-. apply in_map_iff in Hk as ([e0 m0] & Q & Hk). injection Q as Q1 Q2 Q3. subst A e0 m0.
    unfold candidates_of in EC.
    destruct (producer (k_cont k) pb) as [pe|] eqn:EP; [|discriminate]. destruct (seq_subs (k_cont k) body) as [es|] eqn:ES; [|discriminate].
    destruct (affine i pe) as [[a b]|] eqn:EA; [|discriminate]. destruct (expr_eqb a (EInt 0)); [discriminate|]. apply (all_some_in _ _ EC) in Hk. apply in_map_iff in Hk as (e1 & Q & He1).
    destruct (sym_div (ssub e1 b) a) as [mm|] eqn:ED; [|discriminate]. destruct (forallb _ (atoms mm)); [|discriminate]. injection Q as -> ->. apply (proj1 (OE _ _)) in He1.
    split; [exact HA2|]. split; [eapply seq_subs_in; eauto|]. split; [eauto|]. split; [eapply seq_subs_blocks; eauto|].
    destruct (producer_in _ _ _ EP) as (o & O1 & O2 & O3). exists o, pe, a, b. auto.
  Qed.
  Lemma candidate_temps i j n1 n2 pb body ks : (forall m n, tmp m = tmp n -> m = n) -> candidates sc tmp order orderS i j n1 n2 pb body = Some ks -> NoDup (map k_tmp ks).
  Proof.
    intros J. unfold candidates. destruct (all_some _) as [l|] eqn:E; [|discriminate]. intros H. destruct (number tmp 0 (concat l)) as [|k0 r] eqn:EN; [discriminate|].
    injection H as <-. rewrite <- EN. apply number_nodup. exact J.
  Qed.
End ACC.

(* ======================= C54 ======================= *)
Theorem C54_map_fusion_partial I sc tmp order orderS via p n2 st o st' :
  enumerates order -> enumerates orderS -> fresh_names tmp p ->
  map_fusion sc tmp order orderS via (first p) (second_loop p) = Some n2 ->
  independent sc p -> own_seq via 0 (p_body p) ->
  distinct sc p st -> steps sc p st -> covered sc p st ->
  runs I (program (first p) (second_loop p)) st o st' ->
  exists st'', runs I (program (first p) n2) st o st'' /\
    forall x idx, ~ In x (private sc p) -> (forall n, x <> tmp n) -> st'' x idx = st' x idx.
Proof.
  intros OE OS [TI TF] MF IND OWN DIS STEP COV R. destruct p as [i init1 c1 u1 pb kd j init2 c2 u2 body]. unfold map_fusion, first, second_loop in MF, R. cbn [p_i p_init1 p_c1 p_u1 p_block p_kind p_j p_init2 p_c2 p_u2 p_body] in *.
  destruct (candidates _ _ _ _ _ _ _ _ _ _) as [ks|] eqn:EC; [|discriminate]. injection MF as <-.
  destruct (candidate_facts _ _ _ _ OE OS _ _ _ _ _ _ _ EC) as [NE CF]. pose proof (candidate_temps _ _ _ _ _ _ _ _ _ _ _ TI EC) as TD.
  destruct IND as [I1 I2 I3 I4 I5 I6 I7 I8 I9]. unfold outs in *. cbn [p_i p_init1 p_c1 p_u1 p_block p_kind p_j p_init2 p_c2 p_u2 p_body] in *.
  set (pp := Pair i init1 c1 u1 pb kd j init2 c2 u2 body) in *.
  assert (PW: forall x, In x (private sc pp) <-> In x (map o_out pb) /\ sc x = true) by (intros x; unfold private; rewrite filter_In; reflexivity).
  assert (NF: forall m, ~ In (tmp m) (map o_out pb) /\ tmp m <> i /\ ~ In (tmp m) (block_reads pb) /\ ~ In (tmp m) (snames body) /\ tmp m <> j /\ ~ In (tmp m) (catoms c2 ++ atoms u2)).
  { intros m. destruct (TF m) as [F1 F2]. unfold first, second_loop, pp in F1, F2. cbn [p_i p_init1 p_c1 p_u1 p_block p_kind p_j p_init2 p_c2 p_u2 p_body nnames] in F1, F2.
    assert (G1: forall x, In x (map o_out pb) -> In x (snames (SCons (NBlock pb) [] SNil))) by (intros x Hx; apply writes_names; simpl; rewrite app_nil_r; exact Hx).
    assert (G2: forall x, In x (block_reads pb) -> In x (snames (SCons (NBlock pb) [] SNil))) by (intros x Hx; apply names_reads; simpl; rewrite app_nil_r; exact Hx).
    cbn [In] in F1, F2. rewrite !in_app_iff in F1, F2. rewrite in_app_iff. clear - F1 F2 G1 G2. specialize (G1 (tmp m)). specialize (G2 (tmp m)). firstorder congruence. }
  assert (KT: forall k, In k ks -> exists m, k_tmp k = tmp m) by (intros k Hk; apply (CF k Hk)).
  assert (NT: forall y, (forall m, y <> tmp m) -> ~ In y (map k_tmp ks)) by (intros y Hy J; apply in_map_iff in J as (k & Q & Hk); destruct (KT k Hk) as (m & Qm); apply (Hy m); congruence).
  assert (BLK: blocks_only body) by (destruct ks as [|k0 kr]; [congruence|]; destruct (CF k0 (or_introl eq_refl)) as (_ & _ & _ & B & _); exact B).
  assert (INB: forall k, In k ks -> In (k_cont k) (map o_out pb)) by (intros k Hk; destruct (CF k Hk) as (_ & _ & _ & _ & (q & e & a & b & Hq & Qq & _)); rewrite <- Qq; apply in_map; exact Hq).
  assert (IT: forall m, i <> tmp m) by (intros m; destruct (NF m) as (_ & N & _); congruence).
  assert (Ni: ~ In i (map o_out pb)) by (intros J; apply (proj1 I3); simpl; rewrite app_nil_r; exact J).
  assert (SUBN: forall k y, In k ks -> In y (atoms (k_sub k)) -> forall m, y <> tmp m).
  { intros k y Hk Hy m Q. destruct (CF k Hk) as (_ & AC & _). destruct (NF m) as (_ & _ & _ & N & _). apply N. rewrite <- Q. apply names_reads. eapply accesses_reads; [exact AC|]. simpl. rewrite app_nil_r. exact Hy. }
  (* where the atoms of an index mapping come from *)
  assert (MAPA: forall k y, In k ks -> In y (atoms (k_map k)) -> In y (atoms (k_sub k)) \/ y = i \/ outside sc pp y).
  { intros k y Hk Hy. destruct (CF k Hk) as (C1 & _ & _ & _ & (q & e & a & b & Hq & Qq & Eq & Ea & Em)). apply (atoms_sym_div _ _ _ _ Em) in Hy.
    assert (G: In y (atoms e) -> y = i \/ outside sc pp y).
    { intros He. apply (array_subs i (private sc pp) (outside sc pp) pb [] q I1 Hq); [rewrite Qq; intros J; apply PW in J as [_ J]; congruence|]. rewrite Eq. simpl. rewrite app_nil_r. exact He. }
    destruct Hy as [Hy|Hy]; [apply atoms_ssub in Hy as [Hy|Hy]; [auto|]|]; right; apply G; eapply (Delin.affine_atoms i e (a, b)); eauto. }
  destruct (both I i init1 c1 u1 pb j init2 c2 u2 body via ks (private sc pp) (outside sc pp)) with (k := kd) (st := st) (o := o) (st' := st') as (st2 & R2 & E2); auto.
  - intros (_ & Q & _). apply Q. reflexivity.
  - intros x Hx. apply PW in Hx as [Hx _]. exact Hx.
  - intros x Hx (_ & _ & N). contradiction.
  - intros q Hq r Hr s. apply (I2 q r s Hq Hr).
  - intros k Hk. destruct (KT k Hk) as (m & ->). destruct (NF m) as (N1 & N2 & N3 & N4 & N5 & N6). repeat split; auto. intros (J & _). contradiction.
  - intros k Hk J. destruct (CF k Hk) as (C1 & _). apply PW in J as [_ J]. congruence.
  - intros x Hx. destruct (I7 x Hx) as (A1 & A2 & A3). repeat split; auto. intros J. apply A3. apply in_or_app. right. exact J.
  - intros k Hk y Hy. destruct (CF k Hk) as (C1 & C2 & _). destruct (I9 (k_cont k) (k_sub k) y C2 (INB k Hk) Hy) as [A1 A2]. split; [exact A1|]. split; [|exact A2].
    apply NT. intros m. apply (SUBN k y Hk Hy).
  - intros k Hk y Hy. destruct (MAPA k y Hk Hy) as [Hs|[->|Hs]].
    + destruct (CF k Hk) as (C1 & C2 & _). destruct (I9 (k_cont k) (k_sub k) y C2 (INB k Hk) Hs) as [A1 A2]. split; [|exact A1]. apply NT. intros m. apply (SUBN k y Hk Hs).
    + split; [apply NT; exact IT|exact Ni].
    + split; [apply NT; intros m Q; destruct (NF m) as (_ & _ & N & _); apply N; rewrite <- Q; apply Hs|]. intros J. apply in_map_iff in J as (q & Q & Hq).
      apply (proj2 (outs_ok i (private sc pp) (outside sc pp) pb [] q I1 Hq)). rewrite Q. exact Hs.
  - intros k Hk y Hy. destruct (MAPA k y Hk Hy) as [Hs|[->|Hs]]; [|exact I5|apply (I6 y Hs)].
    destruct (CF k Hk) as (C1 & C2 & _). apply (I9 (k_cont k) (k_sub k) y C2 (INB k Hk) Hs).
  - intros y Hy J. apply (proj2 (proj2 (I7 y J))). exact Hy.
  - intros q v w idx Hq NW Nv. apply DIS; auto. destruct (sc (o_out q)) eqn:ES; [|reflexivity]. exfalso. apply NW. apply PW. split; [apply in_map; exact Hq|exact ES].
  - intros v0 vs e w0 ws f E1 T1 E2 T2 w k Hw Hk. destruct (CF k Hk) as (C1 & C2 & _ & _ & (q & pe & a & b & Hq & Qq & Eq & Ea & Em)).
    destruct (COV v0 vs e w0 ws f E1 T1 E2 T2 w (k_cont k) (k_sub k) Hw C2 (INB k Hk) C1) as (v & z & o' & Hv & Z1 & Ho' & Qo' & Z2). change (p_i pp) with i in Z1, Z2. change (p_j pp) with j in Z1.
    assert (NWq: ~ In (o_out q) (private sc pp)) by (rewrite Qq; intros J; apply PW in J as [_ J]; congruence).
    assert (q = o') by (eapply (once i (private sc pp) (outside sc pp) pb); eauto; congruence). subst o'.
    exists v, z, q. split; [exact Hv|]. split; [exact Z1|]. split; [|auto].
    rewrite Eq in Z2. cbn [evals] in Z2. destruct (eval (upd (env_of st) i v) pe) as [z'|] eqn:EZ; [|discriminate]. injection Z2 as ->.
    destruct (affine_recompose_value _ _ _ _ _ _ Ea EZ) as (cv & kv & Hc & Hk' & Vz & Hany).
    assert (AG: forall g, (forall y, In y (atoms g) -> In y (atoms pe)) -> eval (upd (upd (env_of st) i e) j w) g = eval (upd (upd (env_of st) i v) i (upd (upd (env_of st) i e) j w i)) g).
    { intros g Hg. unfold eval. rewrite (ev_agree (upd (upd (env_of st) i e) j w) (upd (upd (env_of st) i v) i (upd (upd (env_of st) i e) j w i))); [reflexivity|]. intros y Hy.
      assert (YO: y = i \/ outside sc pp y).
      { apply (array_subs i (private sc pp) (outside sc pp) pb [] q I1 Hq NWq). rewrite Eq. simpl. rewrite app_nil_r. apply Hg. exact Hy. }
      destruct YO as [->|YO]; [unfold upd at 3; rewrite String.eqb_refl; reflexivity|]. destruct (I6 y YO) as [_ Nj]. destruct YO as (_ & Nyi & _). unfold upd.
      destruct (String.eqb_spec j y) as [Q|_]; [exfalso; apply Nj; symmetry; exact Q|]. destruct (String.eqb_spec i y) as [Q|_]; [exfalso; apply Nyi; symmetry; exact Q|reflexivity]. }
    assert (EA: eval (upd (upd (env_of st) i e) j w) a = Some cv) by (rewrite AG; [apply Hany|intros y Hy; apply (Delin.affine_atoms i pe (a, b)); auto]).
    assert (EB: eval (upd (upd (env_of st) i e) j w) b = Some kv) by (rewrite AG; [apply Hany|intros y Hy; apply (Delin.affine_atoms i pe (a, b)); auto]).
    assert (NZ: cv <> 0).
    { intros ->. assert (SCq: sc (o_out q) = false) by (rewrite Qq; exact C1). apply (STEP q pe a b Hq SCq Eq Ea). destruct (Hany (env_of st i)) as [HA _]. rewrite <- HA. unfold eval.
      rewrite (ev_agree (env_of st) (upd (upd (env_of st) i v) i (env_of st i))); [reflexivity|]. intros y _. unfold upd. destruct (String.eqb_spec i y) as [<-|]; reflexivity. }
    rewrite (div_value _ _ _ _ _ _ Em (eval_ssub _ _ _ _ _ Z1 EB) EA NZ). f_equal. rewrite Vz. unfold upd. rewrite String.eqb_refl. replace (cv * v + kv - kv) with (v * cv) by ring. apply Z.quot_mul. exact NZ.
  - exists st2. split; [exact R2|]. intros x idx N1 N2. symmetry. apply E2. intros [J|J]; [contradiction|]. apply in_map_iff in J as (k & Q & Hk). destruct (KT k Hk) as (m & Qm). apply (N2 m). congruence.
Qed.

(** Two loops over the same range, the second reading the elements the first has written. *)
Lemma trip_rename s t i j c u v vs e : (j = i \/ ~ In j (catoms c ++ atoms u)) -> (forall y, In y (catoms c ++ atoms u) -> y <> i -> y <> j -> s y = t y) ->
  trip s i c u v vs e -> trip t j (csubs c i (ESym j)) (subs u i (ESym j)) v vs e.
Proof.
  intros HJ HA. assert (AG: forall w y, In y (catoms c ++ atoms u) -> upd (upd t j w) i w y = upd s i w y).
  { intros w y Hy. unfold upd. destruct (String.eqb_spec i y) as [|N1]; [reflexivity|]. destruct (String.eqb_spec j y) as [Q|N2]; [subst y; destruct HJ as [HJ|HJ]; [congruence|contradiction]|].
    symmetry. apply HA; auto. }
  assert (EJ: forall w, ev (upd t j w) (ESym j) = Fin w) by (intros w; simpl; unfold upd; rewrite String.eqb_refl; reflexivity).
  assert (HC: forall w, cev (upd t j w) (csubs c i (ESym j)) = cev (upd s i w) c) by (intros w; rewrite (cev_subs _ c i (ESym j) w (EJ w)); apply cev_agree; intros y Hy; apply AG, in_or_app; left; exact Hy).
  assert (HU: forall w, eval (upd t j w) (subs u i (ESym j)) = eval (upd s i w) u).
  { intros w. unfold eval. rewrite (ev_subs _ u i (ESym j) w (EJ w)), (ev_agree (upd (upd t j w) i w) (upd s i w)); [reflexivity|]. intros y Hy. apply AG, in_or_app. right. exact Hy. }
  induction 1 as [w H|w w' ws f H1 H2 H3 IH]; [apply T_end; rewrite HC; exact H|]. eapply T_next; [rewrite HC; exact H1|rewrite HU; exact H2|exact IH].
Qed.
Definition same_range (p : pair_of_loops) : Prop :=
  p_init2 p = p_init1 p /\ ~ In (p_i p) (atoms (p_init1 p)) /\ p_c2 p = csubs (p_c1 p) (p_i p) (ESym (p_j p)) /\ p_u2 p = subs (p_u1 p) (p_i p) (ESym (p_j p)) /\
  (p_j p = p_i p \/ ~ In (p_j p) (catoms (p_c1 p) ++ atoms (p_u1 p))).
Definition same_elements (p : pair_of_loops) (st : store) : Prop := forall x r, In (x, [r]) (accesses (p_body p)) -> In x (outs p) ->
  exists o e, In o (p_block p) /\ o_out o = x /\ o_sub o = [e] /\ r = subs e (p_i p) (ESym (p_j p)) /\ (p_j p = p_i p \/ ~ In (p_j p) (atoms e)) /\
    forall v, exists z, eval (upd (env_of st) (p_i p) v) e = Some z.
Lemma same_covered sc p st : same_range p -> same_elements p st -> covered sc p st.
Proof.
  intros (S1 & S2 & S3 & S4 & S5) SE v0 vs e w0 ws f E1 T1 E2 T2 w x r Hw Hx Ho _. rewrite S3, S4 in T2. rewrite S1 in E2.
  assert (Q: eval (upd (env_of st) (p_i p) e) (p_init1 p) = eval (env_of st) (p_init1 p)).
  { unfold eval. rewrite (ev_agree (upd (env_of st) (p_i p) e) (env_of st)); [reflexivity|]. intros y Hy. unfold upd. destruct (String.eqb_spec (p_i p) y) as [<-|]; [contradiction|reflexivity]. }
  assert (w0 = v0) by congruence. subst w0.
  assert (T3: trip (upd (env_of st) (p_i p) e) (p_j p) (csubs (p_c1 p) (p_i p) (ESym (p_j p))) (subs (p_u1 p) (p_i p) (ESym (p_j p))) v0 vs e).
  { apply (trip_rename (env_of st)); [exact S5| |exact T1]. intros y _ N1 _. unfold upd. destruct (String.eqb_spec (p_i p) y) as [Q'|]; [exfalso; apply N1; symmetry; exact Q'|reflexivity]. }
  destruct (trip_det _ _ _ _ _ _ _ T2 _ _ T3) as [-> ->]. destruct (SE x r Hx Ho) as (o & g & O1 & O2 & O3 & -> & O5 & O6). destruct (O6 w) as (z & Z1).
  exists w, z, o. split; [exact Hw|]. split; [|split; [exact O1|split; [exact O2|rewrite O3; cbn [evals]; rewrite Z1; reflexivity]]].
  rewrite <- Z1. unfold eval. set (t := upd (upd (env_of st) (p_i p) e) (p_j p) w).
  assert (EJ: ev t (ESym (p_j p)) = Fin w) by (simpl; unfold t, upd at 1; rewrite String.eqb_refl; reflexivity).
  rewrite (ev_subs t g (p_i p) (ESym (p_j p)) w EJ), (ev_agree (upd t (p_i p) w) (upd (env_of st) (p_i p) w)); [reflexivity|].
  intros y Hy. unfold t, upd. destruct (String.eqb_spec (p_i p) y) as [|N1]; [reflexivity|]. destruct (String.eqb_spec (p_j p) y) as [Q'|]; [|reflexivity].
  subst y. destruct O5 as [O5|O5]; [congruence|contradiction].
Qed.
Theorem C54_same_range I sc tmp order orderS via p n2 st o st' :
  enumerates order -> enumerates orderS -> fresh_names tmp p ->
  map_fusion sc tmp order orderS via (first p) (second_loop p) = Some n2 ->
  independent sc p -> own_seq via 0 (p_body p) -> distinct sc p st -> steps sc p st ->
  same_range p -> same_elements p st ->
  runs I (program (first p) (second_loop p)) st o st' ->
  exists st'', runs I (program (first p) n2) st o st'' /\
    forall x idx, ~ In x (private sc p) -> (forall n, x <> tmp n) -> st'' x idx = st' x idx.
Proof. intros. eapply C54_map_fusion_partial; eauto using same_covered. Qed.

(** A case: [for i < n: { t = B[i]; A[2 i + 1] = t }; for j < n: C[j] = A[2 j + 1]]. *)
Definition cp (x : string) (l : list expr) (y : string) (m : list expr) : op := {| o_code := 0; o_ins := [ORead x l]; o_out := y; o_sub := m |}.
Definition lin (z : Z) (i : string) (k : Z) : expr := EAdd [EInt k; EMul [EInt z; ESym i]].
Definition c54_sc (x : string) : bool := negb (existsb (String.eqb x) ["A"; "B"; "C"]).
Fixpoint c54_tmp (n : nat) : string := match n with O => "_fused_tmp" | S m => String "1"%char (c54_tmp m) end.
Lemma c54_tmp_inj : forall m n, c54_tmp m = c54_tmp n -> m = n.
Proof. induction m as [|m IH]; intros [|n] H; try discriminate; [reflexivity|]. injection H as H. rewrite (IH n H). reflexivity. Qed.
Definition c54_via1 : nat -> nat -> nat -> list expr := fun _ _ _ => [lin 2 "j" 1].
Definition upto (i : string) : cond := CLt (ESym i) (ESym "n").
Definition c54_p : pair_of_loops := Pair "i" (EInt 0) (upto "i") (nxt "i") [cp "B" [ESym "i"] "t" []; cp "t" [] "A" [lin 2 "i" 1]]
  KFor "j" (EInt 0) (upto "j") (nxt "j") (SCons (NBlock [cp "A" [lin 2 "j" 1] "C" [ESym "j"]]) [] SNil).
Definition c54_n2 := map_fusion c54_sc c54_tmp (fun l => l) (fun l => l) c54_via1 (first c54_p) (second_loop c54_p).
Definition ids {A} (l : list A) : list A := l.
Ltac notin := let H := fresh in intros H; simpl in H; repeat (destruct H as [H|H]; [try discriminate H|]); try exact H; try destruct H.
Theorem C54_hypotheses :
  enumerates (@ids expr) /\ enumerates (@ids string) /\ fresh_names c54_tmp c54_p /\
  (exists n2, map_fusion c54_sc c54_tmp ids ids c54_via1 (first c54_p) (second_loop c54_p) = Some n2) /\
  independent c54_sc c54_p /\ own_seq c54_via1 0 (p_body c54_p) /\
  (forall st, distinct c54_sc c54_p st /\ steps c54_sc c54_p st /\ same_elements c54_p st /\ covered c54_sc c54_p st) /\ same_range c54_p /\
  exists st st', runs I0 (program (first c54_p) (second_loop c54_p)) st ONorm st' /\ st "C" [2] = 0 /\ st' "C" [2] = 8.
Proof.
  assert (E: forall A, enumerates (@ids A)) by (intros A l x; reflexivity).
  assert (EL: forall s x v, eval (upd s x v) (lin 2 x 1) = Some (1 + 2 * v)) by (intros s x v; unfold eval, lin; cbn -[Z.mul Z.add]; unfold upd; rewrite String.eqb_refl; apply f_equal; ring).
  assert (SR: same_range c54_p).
  { split; [reflexivity|]. split; [notin|]. split; [reflexivity|]. split; [reflexivity|]. right. notin. }
  assert (SE: forall st, same_elements c54_p st).
  { intros st x r H1 H2. simpl in H1. destruct H1 as [H1|[]]. injection H1 as <- <-. exists (cp "t" [] "A" [lin 2 "i" 1]), (lin 2 "i" 1). split; [simpl; auto|]. split; [reflexivity|]. split; [reflexivity|].
    split; [reflexivity|]. split; [right; notin|]. intros v. exists (1 + 2 * v). apply EL. }
  split; [apply E|]. split; [apply E|]. split; [split; [exact c54_tmp_inj|]; intros [|n]; split; notin|]. split; [eexists; vm_compute; reflexivity|]. split.
  { constructor.
    - assert (NB: outside c54_sc c54_p "B") by (split; [simpl; auto|split; [discriminate|notin]]).
      change (private c54_sc c54_p) with ["t"]. cbn [ok_block c54_p p_i p_block cp o_out o_ins o_sub]. set (SB := outside c54_sc c54_p) in *. cbn [in_dec map concat atoms lin app].
      assert (N1: forall x, SB x -> x = "B").
      { intros x (H & H1 & H2). change (In x ["B"; "i"; "t"; "i"]) in H. destruct H as [H|[H|[H|[H|[]]]]]; [auto|exfalso; apply H1; auto| |exfalso; apply H1; auto].
        exfalso. apply H2. left. exact H. }
      split; [intros q [<-|[]]; split; [left; exact NB|intros y [<-|[]]; left; reflexivity]|]. split; [intros y []|]. split; [reflexivity|]. split; [discriminate|]. split; [intros J; apply N1 in J; discriminate|]. split; [left; simpl; auto|].
      split; [intros q [<-|[]]; split; [right; split; [right; left; reflexivity|reflexivity]|intros y []]|]. split; [intros y Hy; left; simpl in Hy; destruct Hy as [Hy|[]]; auto|].
      split; [intros y Hy; left; simpl in Hy; destruct Hy as [Hy|[]]; auto|]. split; [discriminate|]. split; [intros J; apply N1 in J; discriminate|]. split; [right; intros []|exact Logic.I].
    - intros o q l Ho Hq. simpl in Ho. destruct Ho as [<-|[<-|[]]]; simpl in Hq; destruct Hq as [<-|[]]; discriminate.
    - split; [notin|]. intros x H. simpl in H. repeat (destruct H as [<-|H]; [notin|]). destruct H.
    - split; [notin|]. intros x H. simpl in H. repeat (destruct H as [<-|H]; [notin|]). destruct H.
    - notin.
    - intros x (H & N1 & N2). simpl in H. repeat (destruct H as [<-|H]; [split; [notin|discriminate]|]). destruct H.
    - intros x H. simpl in H. destruct H as [<-|[<-|[]]]; (split; [notin|split; [discriminate|notin]]).
    - intros x H. simpl in H. destruct H as [<-|[]]. notin.
    - intros x e y H1 _ Hy. simpl in H1. destruct H1 as [H1|[]]. injection H1 as <- <-. simpl in Hy. destruct Hy as [<-|[]]. split; notin. }
  split; [simpl; auto|]. split.
  { intros st. split; [|split; [|split; [apply SE|apply same_covered; [exact SR|apply SE]]]].
    - intros o v w idx Ho Hs N. simpl in Ho. destruct Ho as [<-|[<-|[]]]; [discriminate Hs|]. change (o_sub (cp "t" [] "A" [lin 2 "i" 1])) with [lin 2 "i" 1]. cbn [evals p_i c54_p]. rewrite !EL.
      intros H1 H2. assert (1 + 2 * v = 1 + 2 * w) by congruence. lia.
    - intros o e a b Ho Hs Q. simpl in Ho. destruct Ho as [<-|[<-|[]]]; [discriminate Hs|]. injection Q as <-. intros H. vm_compute in H. injection H as <- <-. discriminate. }
  split; [exact SR|].
  exists (wr (wr st0 "n" [] 3) "B" [2] 8). eexists. split; [apply (xseq_runs I0 60); vm_compute; reflexivity|]. split; reflexivity.
Qed.

(* ---------------------------------------------------------------- *)
(** * What the criteria do not exclude *)
Definition misfused (via : nat -> nat -> nat -> list expr) (p : pair_of_loops) : Prop :=
  fresh_names c54_tmp p /\ exists n2, map_fusion c54_sc c54_tmp ids ids via (first p) (second_loop p) = Some n2 /\
  exists st st1 st2 x idx, runs I0 (program (first p) (second_loop p)) st ONorm st1 /\ runs I0 (program (first p) n2) st ONorm st2 /\ c54_sc x = false /\ st1 x idx <> st2 x idx.
Definition misfusedb (via : nat -> nat -> nat -> list expr) (p : pair_of_loops) (st : store) (x : string) (idx : list Z) : bool :=
  match map_fusion c54_sc c54_tmp ids ids via (first p) (second_loop p) with
  | Some n2 => match xseq I0 60 (program (first p) (second_loop p)) st, xseq I0 60 (program (first p) n2) st with
               | Some (ONorm, s1), Some (ONorm, s2) => negb (c54_sc x) && negb (s1 x idx =? s2 x idx)
               | _, _ => false end
  | None => false end.
Lemma misfused_ok via p st x idx : fresh_names c54_tmp p -> misfusedb via p st x idx = true -> misfused via p.
Proof.
  intros F H. split; [exact F|]. unfold misfusedb in H. destruct (map_fusion _ _ _ _ _ _ _) as [n2|] eqn:E; [|discriminate]. exists n2. split; [reflexivity|].
  destruct (xseq I0 60 (program (first p) (second_loop p)) st) as [[[] s1]|] eqn:E1; try discriminate. destruct (xseq I0 60 (program (first p) n2) st) as [[[] s2]|] eqn:E2; try discriminate.
  apply andb_true_iff in H as [H1 H2]. apply negb_true_iff in H1. apply negb_true_iff, Z.eqb_neq in H2. exists st, s1, s2, x, idx. split; [eapply xseq_runs; exact E1|]. split; [eapply xseq_runs; exact E2|]. auto.
Qed.
Ltac misf st x idx := apply (misfused_ok _ _ st x idx); [split; [exact c54_tmp_inj|]; intros [|?]; split; notin|vm_compute; reflexivity].
Definition two (pb : block) (bd : cond) (s : seq) : pair_of_loops := Pair "i" (EInt 0) (upto "i") (nxt "i") pb KFor "j" (EInt 0) bd (nxt "j") s.
Definition st3 : store := wr (wr (wr (wr st0 "n" [] 3) "B" [0] 5) "B" [1] 6) "B" [2] 7.
Definition at_ (i : string) : list expr := [ESym i].
(** The second loop reads an element the first one did not write (its range is larger). *)
Theorem C54_range_refuted : misfused (fun _ _ _ => at_ "j")
  (two [cp "B" (at_ "i") "A" (at_ "i")] (CLt (ESym "j") (ESym "m")) (SCons (NBlock [cp "A" (at_ "j") "C" (at_ "j")]) [] SNil)).
Proof. misf (wr (wr (wr st3 "m" [] 4) "n" [] 1) "A" [1] 1) "C" [1]. Qed.
(** The first loop writes every other element: the index mapping is rounded. *)
Theorem C54_stride_refuted : misfused (fun _ _ _ => at_ "j")
  (two [cp "B" (at_ "i") "A" [EMul [EInt 2; ESym "i"]]] (upto "j") (SCons (NBlock [cp "A" (at_ "j") "C" (at_ "j")]) [] SNil)).
Proof. misf st3 "C" [1]. Qed.
(** The second loop overwrites what the first one has read. *)
Theorem C54_overwrite_refuted : misfused (fun _ _ _ => at_ "j")
  (two [cp "B" (at_ "i") "A" (at_ "i")] (upto "j") (SCons (NBlock [cp "A" (at_ "j") "C" (at_ "j")]) [] (SCons (NBlock [cp "A" (at_ "j") "B" [nxt "j"]]) [] SNil))).
Proof. misf st3 "C" [1]. Qed.
(** One access node is read through two memlets: both get the same temporary. *)
Theorem C54_shared_node_refuted : misfused (fun _ _ _ => [nxt "j"])
  (two [cp "B" (at_ "i") "A" (at_ "i")] (CLt (ESym "j") (EInt 1)) (SCons (NBlock [cp "A" (at_ "j") "C" (at_ "j"); cp "A" [nxt "j"] "C" [nxt "j"]]) [] SNil)).
Proof. misf st3 "C" [0]. Qed.
(** The tasklet reads the index through an access node, which is not replaced. *)
Theorem C54_index_access_refuted : misfused (fun _ _ _ => at_ "j")
  (two [cp "i" [] "A" (at_ "i")] (upto "j") (SCons (NBlock [cp "A" (at_ "j") "C" (at_ "j")]) [] SNil)).
Proof. misf st3 "C" [1]. Qed.
(** The first loop has another result, which the copies write again. *)
Theorem C54_other_output_refuted : misfused (fun _ _ _ => at_ "j")
  (two [cp "B" (at_ "i") "A" (at_ "i"); cp "B" (at_ "i") "C" (at_ "i")] (upto "j") (SCons (NBlock [cp "A" (at_ "j") "C" [nxt "j"]]) [] SNil)).
Proof. misf st3 "C" [1]. Qed.
(** The subset uses a symbol the second loop assigns; it is a parameter of the first. *)
Theorem C54_parameter_refuted : misfused (fun _ _ _ => at_ "t")
  (two [cp "B" (at_ "i") "A" (at_ "i"); cp "t" [] "s" []] (CLt (ESym "j") (EInt 1)) (SCons (NBlock [cp "n" [] "m" []]) [("t", nxt "t")] (SCons (NBlock [cp "A" (at_ "t") "C" (at_ "j")]) [] SNil))).
Proof. misf st3 "C" [0]. Qed.
(** The first loop reads a symbol of the name of the second index. *)
Theorem C54_capture_refuted : misfused (fun _ _ _ => at_ "j")
  (two [cp "B" [EAdd [ESym "i"; ESym "j"]] "A" (at_ "i")] (upto "j") (SCons (NBlock [cp "A" (at_ "j") "C" (at_ "j")]) [] SNil)).
Proof. misf st3 "C" [1]. Qed.
