(** * Edits of control-flow graphs: unifying loop exits, inserting states *)
From Coq Require Import ZArith List Bool String Lia PeanoNat Permutation.
From Verif Require Import Sym SymFuns IR IRFacts Cfg CfgProofs.
Import ListNotations.
Local Open Scope string_scope.
Local Open Scope list_scope.
Local Open Scope nat_scope.

(** ** passes/structured_control_flow/unify_loop_exits.cpp *)
Section UNIFY.
  Variable g : cfg.
  (** the new state and the new symbol (lines 66-69); the place an assignment takes in the
      hash map of an edge; the ids of the new edges; the iteration order of a set *)
  Variable m : nat.
  Variable sym : string.
  Variable pos : edge -> nat.
  Variable id1 : edge -> nat.
  Variable id2 : nat -> nat.
  Variable order : list nat -> list nat.

  (** lines 6-33 *)
  Definition natural_loop (be : edge) : list nat := backwards g (2 + List.length (g_edges g)) (e_dst be) [e_src be] [].
  (** lines 46-61 *)
  Definition leaves (L : list nat) (e : edge) : bool := mem (e_src e) L && negb (mem (e_dst e) L).
  Definition exit_states (L : list nat) : list nat := nodup Nat.eq_dec (map e_dst (filter (leaves L) (g_edges g))).
  (** lines 74-78 *)
  Definition put (k : nat) (p : string * expr) (a : assigns) : assigns := firstn k a ++ p :: skipn k a.
  Definition redirect (i : nat) (e : edge) : edge := E (id1 e) (e_src e) m (e_cond e) (put (pos e) (sym, EInt (Z.of_nat i)) (e_asg e)).
  Definition dispatch (i x : nat) : edge := E (id2 i) m x (CEq (ESym sym) (EInt (Z.of_nat i))) [].
  (** lines 71-88 *)
  Fixpoint exits_of (L : list nat) (i : nat) (xs : list nat) : list edge :=
    match xs with
    | [] => []
    | x :: r => map (redirect i) (filter (fun e => leaves L e && (e_dst e =? x)) (g_edges g)) ++ dispatch i x :: exits_of L (S i) r
    end.
  Definition unify (L : list nat) (xs : list nat) : cfg :=
    G (g_start g) (filter (fun e => negb (leaves L e)) (g_edges g) ++ exits_of L 0 xs) (fun s => if s =? m then [] else g_blk g s) (fun s => if s =? m then None else g_ret g s).
  (** lines 36-94: run_pass, for the back edges of the graph *)
  Definition unify_pass (bedges : list edge) : option cfg :=
    match find (fun be => 1 <? List.length (exit_states (natural_loop be))) bedges with
    | Some be => Some (unify (natural_loop be) (order (exit_states (natural_loop be))))
    | None => None
    end.

  (** the state and the symbol are new *)
  Definition new_state : Prop := g_start g <> m /\ forall e, In e (g_edges g) -> e_src e <> m /\ e_dst e <> m.
  Definition new_symbol : Prop := (forall s, ~ In sym (block_reads (g_blk g s))) /\
    forall e, In e (g_edges g) -> ~ In sym (catoms (e_cond e)) /\ ~ In sym (asg_reads (e_asg e)) /\ ~ In sym (map fst (e_asg e)).

  Section PROOF.
    Variable I : nat -> list Z -> option Z.
    Variable L : list nat.
    Variable xs : list nat.
    Hypothesis NS : new_state.
    Hypothesis NY : new_symbol.
    Hypothesis ND : NoDup xs.
    Hypothesis ALL : forall e, In e (g_edges g) -> leaves L e = true -> In (e_dst e) xs.
    Notation g' := (unify L xs).
    Notation D := (fun x => x = sym).

    Lemma exits_of_in i l e : In e (exits_of L i l) <-> exists k x, nth_error l k = Some x /\
      (e = dispatch (i + k) x \/ exists f, In f (g_edges g) /\ leaves L f = true /\ e_dst f = x /\ e = redirect (i + k) f).
    Proof.
      revert i. induction l as [|x l IH]; intros i; simpl.
      - split; [tauto|]. intros (k & x & E & _). destruct k; discriminate.
      - rewrite in_app_iff. simpl. rewrite IH, in_map_iff. split.
        + intros [(f & <- & Hf)|[<-|(k & y & E & H)]].
          * apply filter_In in Hf as [Hf1 Hf2]. apply andb_true_iff in Hf2 as [Hf2 Hf3]. apply Nat.eqb_eq in Hf3.
            exists 0, x. split; [reflexivity|]. right. exists f. rewrite Nat.add_0_r. auto.
          * exists 0, x. split; [reflexivity|]. left. rewrite Nat.add_0_r. reflexivity.
          * exists (S k), y. split; [exact E|]. replace (i + S k) with (S i + k) by lia. exact H.
        + intros (k & y & E & H). destruct k as [|k]; simpl in E.
          * injection E as <-. rewrite Nat.add_0_r in H. destruct H as [->|(f & H1 & H2 & H3 & ->)]; [auto|]. left. exists f. split; [reflexivity|].
            apply filter_In. rewrite H2, H3, Nat.eqb_refl. auto.
          * right; right. exists k, y. split; [exact E|]. replace (S i + k) with (i + S k) by lia. exact H.
    Qed.
    Lemma kept_edge e : In e (g_edges g) -> leaves L e = false -> In e (g_edges g').
    Proof. intros H1 H2. simpl. apply in_or_app. left. apply filter_In. rewrite H2. auto. Qed.

    Lemma put_exec k a st v st' : ~ In sym (asg_reads a) -> ~ In sym (map fst a) ->
      exec_assigns st a = Some st' -> forall stb, eqx D st stb -> exists stb', exec_assigns stb (put k (sym, EInt v) a) = Some stb' /\ eqx D st' stb' /\ stb' sym [] = v.
    Proof.
      assert (KEEP: forall a st st', ~ In sym (map fst a) -> exec_assigns st a = Some st' -> st' sym [] = st sym []).
      { clear. induction a as [|[x e] a IH]; simpl; intros st st' N E; [congruence|]. destruct (eval (env_of st) e); [|discriminate].
        rewrite (IH _ _ (fun H => N (or_intror H)) E). apply IRFacts.wr_other. left. intros ->. apply N. left. reflexivity. }
      revert a st. induction k as [|k IH]; intros a st N1 N2 E stb X.
      - unfold put. simpl firstn. simpl skipn. simpl.
        assert (X2: eqx D st (wr stb sym [] v)) by (apply eqx_wr_r; auto).
        destruct (exec_assigns_eqx D a st _ st' X2) as (stb' & E' & X'); [|exact E|].
        { intros y Hy ->. exact (N1 Hy). }
        exists stb'. split; [exact E'|]. split; [exact X'|]. rewrite (KEEP _ _ _ N2 E'). apply wr_same.
      - destruct a as [|[x e] a].
        + unfold put. simpl. simpl in E. injection E as <-. eexists. split; [reflexivity|]. split; [apply eqx_wr_r; auto|apply wr_same].
        + unfold put. simpl firstn. simpl skipn. simpl. simpl in E. destruct (eval (env_of st) e) as [w|] eqn:V; [|discriminate].
          rewrite (eval_eqx D st stb e X) in V; [rewrite V|intros y Hy ->; apply N1; simpl; apply in_or_app; left; exact Hy].
          apply (IH a (wr st x [] w)); [intros H; apply N1; simpl; apply in_or_app; right; exact H|intros H; apply N2; right; exact H|exact E|apply eqx_wr; exact X].
    Qed.
    Lemma put_back k a st v st' : ~ In sym (asg_reads a) -> ~ In sym (map fst a) ->
      exec_assigns st (put k (sym, EInt v) a) = Some st' -> forall sta, eqx D sta st -> exists sta', exec_assigns sta a = Some sta' /\ eqx D sta' st' /\ st' sym [] = v.
    Proof.
      assert (KEEP: forall a st st', ~ In sym (map fst a) -> exec_assigns st a = Some st' -> st' sym [] = st sym []).
      { clear. induction a as [|[x e] a IH]; simpl; intros st st' N E; [congruence|]. destruct (eval (env_of st) e); [|discriminate].
        rewrite (IH _ _ (fun H => N (or_intror H)) E). apply IRFacts.wr_other. left. intros ->. apply N. left. reflexivity. }
      revert a st. induction k as [|k IH]; intros a st N1 N2 E sta X.
      - unfold put in E. simpl firstn in E. simpl skipn in E. simpl in E.
        assert (X2: eqx D (wr st sym [] v) sta) by (apply eqx_wr_l; [reflexivity|apply eqx_sym; exact X]).
        destruct (exec_assigns_eqx D a _ sta st' X2) as (sta' & E' & X'); [|exact E|].
        { intros y Hy ->. exact (N1 Hy). }
        exists sta'. split; [exact E'|]. split; [apply eqx_sym; exact X'|]. rewrite (KEEP _ _ _ N2 E). apply wr_same.
      - destruct a as [|[x e] a].
        + unfold put in E. simpl in E. injection E as <-. exists sta. split; [reflexivity|]. split; [apply eqx_wr_r; auto|apply wr_same].
        + unfold put in E. simpl firstn in E. simpl skipn in E. simpl in E. destruct (eval (env_of st) e) as [w|] eqn:V; [|discriminate].
          rewrite <- (eval_eqx D sta st e X) in V; [|intros y Hy ->; apply N1; simpl; apply in_or_app; left; exact Hy]. simpl. rewrite V.
          apply (IH a (wr st x [] w)); [intros H; apply N1; simpl; apply in_or_app; right; exact H|intros H; apply N2; right; exact H|exact E|apply eqx_wr; exact X].
    Qed.

    Lemma blk' s : s <> m -> g_blk g' s = g_blk g s.
    Proof. intros N. simpl. apply Nat.eqb_neq in N as ->. reflexivity. Qed.
    Lemma ret' s : s <> m -> g_ret g' s = g_ret g s.
    Proof. intros N. simpl. apply Nat.eqb_neq in N as ->. reflexivity. Qed.
    Lemma dst_m e s : In e (out g s) -> e_dst e <> m.
    Proof. intros H. apply out_in in H as [H _]. apply (proj2 NS). exact H. Qed.
    Lemma out_empty s : s <> m -> out g s = [] <-> out g' s = [].
    Proof.
      intros N. split; intros H.
      - destruct (out g' s) as [|e l] eqn:O; [reflexivity|]. exfalso. assert (J: In e (out g' s)) by (rewrite O; left; reflexivity).
        apply out_in in J as [J1 J2]. simpl in J1. apply in_app_or in J1 as [J1|J1].
        + apply filter_In in J1 as [J1 _]. assert (In e (out g s)) by (apply out_in; auto). rewrite H in H0. destruct H0.
        + apply exits_of_in in J1 as (k & x & E & [->|(f & H1 & H2 & H3 & ->)]); simpl in J2; [congruence|].
          assert (In f (out g s)) by (apply out_in; auto). rewrite H in H0. destruct H0.
      - destruct (out g s) as [|e l] eqn:O; [reflexivity|]. exfalso. assert (J: In e (out g s)) by (rewrite O; left; reflexivity).
        apply out_in in J as [J1 J2]. destruct (leaves L e) eqn:LV.
        + destruct (In_nth_error _ _ (ALL e J1 LV)) as (k & Hk).
          assert (In (redirect k e) (out g' s)); [|rewrite H in H0; destruct H0]. apply out_in. split; [|exact J2].
          simpl. apply in_or_app. right. apply exits_of_in. exists k, (e_dst e). split; [exact Hk|]. right. exists e. auto.
        + assert (In e (out g' s)); [|rewrite H in H0; destruct H0]. apply out_in. split; [apply kept_edge; auto|exact J2].
    Qed.
    Lemma nav l : ~ In sym l -> avoids D l.
    Proof. intros N y Hy ->. exact (N Hy). Qed.

    Lemma unify_fwd n s st r st' : crun I g n s st r st' -> s <> m -> forall stb, eqx D st stb -> exists n' stb', crun I g' n' s stb r stb' /\ eqx D st' stb'.
    Proof.
      induction 1 as [s st st' r O Bk Rt|n s st s1 st1 r st' ST C IH]; intros N stb X.
      - destruct (exec_block_eqx I D _ _ _ _ X (nav _ (proj1 NY s)) Bk) as (b' & B1 & B2). exists 0, b'. split; [|exact B2].
        apply C_ret; [apply out_empty; auto|rewrite blk'; auto|rewrite ret'; auto].
      - inversion ST as [? ? sta e st2 He Bk T A]; subst.
        destruct (exec_block_eqx I D _ _ _ _ X (nav _ (proj1 NY s)) Bk) as (b1 & B1 & B2).
        pose proof He as He'. apply out_in in He' as [He1 He2]. destruct (proj2 NY e He1) as (Y1 & Y2 & Y3).
        rewrite (cev_eqx D sta b1 (e_cond e) B2 (nav _ Y1)) in T.
        destruct (leaves L e) eqn:LV.
        + destruct (In_nth_error _ _ (ALL e He1 LV)) as (k & Hk).
          destruct (put_exec (pos e) (e_asg e) sta (Z.of_nat k) st1 Y2 Y3 A b1 B2) as (b2 & A2 & X2 & V2).
          destruct (IH (dst_m e s He) b2 X2) as (n' & stb' & C' & X'). exists (S (S n')), stb'. split; [|exact X'].
          eapply C_next with (s1 := m) (st1 := b2).
          * change m with (e_dst (redirect k e)). econstructor; [|rewrite blk'; [exact B1|exact N]|exact T|exact A2].
            apply out_in. split; [|exact He2]. simpl. apply in_or_app. right. apply exits_of_in. exists k, (e_dst e). split; [exact Hk|]. right. exists e. auto.
          * eapply C_next; [|exact C']. change (e_dst e) with (e_dst (dispatch k (e_dst e))). econstructor.
            -- apply out_in. split; [|reflexivity]. simpl. apply in_or_app. right. apply exits_of_in. exists k, (e_dst e). split; [exact Hk|left; reflexivity].
            -- simpl. rewrite Nat.eqb_refl. reflexivity.
            -- simpl. unfold env_of. rewrite V2, Z.eqb_refl. reflexivity.
            -- reflexivity.
        + destruct (exec_assigns_eqx D (e_asg e) sta b1 st1 B2 (nav _ Y2) A) as (b2 & A2 & X2).
          destruct (IH (dst_m e s He) b2 X2) as (n' & stb' & C' & X'). exists (S n'), stb'. split; [|exact X'].
          eapply C_next; [|exact C']. econstructor; [|rewrite blk'; [exact B1|exact N]|exact T|exact A2]. apply out_in. split; [apply kept_edge; auto|exact He2].
    Qed.
    Lemma unify_bwd n : forall s st r st', crun I g' n s st r st' -> s <> m -> forall sta, eqx D sta st -> exists n' sta', crun I g n' s sta r sta' /\ eqx D sta' st'.
    Proof.
      induction n as [n IH] using lt_wf_ind. intros s st r st' C N sta X.
      inversion C as [? ? ? ? O Bk Rt|n1 ? ? s1 st1 ? ? ST C1]; subst.
      - rewrite blk' in Bk by exact N. rewrite ret' in Rt by exact N. apply out_empty in O; [|exact N].
        destruct (exec_block_eqx I D _ _ sta _ (eqx_sym _ _ _ X) (nav _ (proj1 NY s)) Bk) as (b' & B1 & B2). exists 0, b'. split; [apply C_ret; auto|apply eqx_sym; exact B2].
      - inversion ST as [? ? stb e st2 He Bk T A]; subst. rewrite blk' in Bk by exact N.
        destruct (exec_block_eqx I D _ _ sta _ (eqx_sym _ _ _ X) (nav _ (proj1 NY s)) Bk) as (a1 & B1 & B2). apply eqx_sym in B2.
        apply out_in in He as [He1 He2]. simpl in He1. apply in_app_or in He1 as [He1|He1].
        + apply filter_In in He1 as [He1 _]. destruct (proj2 NY e He1) as (Y1 & Y2 & Y3).
          rewrite <- (cev_eqx D a1 stb (e_cond e) B2 (nav _ Y1)) in T.
          destruct (exec_assigns_eqx D (e_asg e) stb a1 st1 (eqx_sym _ _ _ B2) (nav _ Y2) A) as (a2 & A2 & X2). apply eqx_sym in X2.
          assert (He: In e (out g s)) by (apply out_in; auto).
          destruct (IH n1 (Nat.lt_succ_diag_r _) _ _ _ _ C1 (dst_m e s He) a2 X2) as (n' & sta' & C' & X'). exists (S n'), sta'. split; [|exact X'].
          eapply C_next; [|exact C']. econstructor; eauto.
        + apply exits_of_in in He1 as (k & x & Hk & [->|(f & H1 & H2 & H3 & ->)]); simpl in He2; [congruence|]. simpl in T, A, C1.
          destruct (proj2 NY f H1) as (Y1 & Y2 & Y3). rewrite <- (cev_eqx D a1 stb (e_cond f) B2 (nav _ Y1)) in T.
          destruct (put_back (pos f) (e_asg f) stb (Z.of_nat k) st1 Y2 Y3 A a1 B2) as (a2 & A2 & X2 & V2).
          inversion C1 as [? ? ? ? O2 _ Rt|n2 ? ? s2 st2' ? ? ST2 C2]; subst; [simpl in Rt; rewrite Nat.eqb_refl in Rt; discriminate|].
          inversion ST2 as [? ? stc e2 st3 He Bk2 T2 A3]; subst. simpl in Bk2. rewrite Nat.eqb_refl in Bk2. simpl in Bk2. injection Bk2 as <-.
          apply out_in in He as [He Em]. simpl in He. apply in_app_or in He as [He|He].
          { exfalso. apply filter_In in He as [He _]. destruct (proj2 NS e2 He) as [Q _]. congruence. }
          apply exits_of_in in He as (k2 & x2 & Hk2 & [->|(f2 & Hf & _ & _ & ->)]); [|exfalso; simpl in Em; destruct (proj2 NS f2 Hf) as [Q _]; congruence].
          simpl in T2, A3, C2. injection A3 as <-. unfold env_of in T2. rewrite V2 in T2. injection T2 as T2. apply Z.eqb_eq, Nat2Z.inj in T2. subst k2.
          rewrite Hk in Hk2. injection Hk2 as <-.
          assert (Hf: In f (out g (e_src f))) by (apply out_in; auto).
          destruct (IH n2 (Nat.lt_lt_succ_r _ _ (Nat.lt_succ_diag_r _)) _ _ _ _ C2 (dst_m f _ Hf) a2 X2) as (n' & sta' & C' & X'). exists (S n'), sta'. split; [|exact X'].
          eapply C_next; [|exact C']. econstructor; eauto.
    Qed.
  End PROOF.
End UNIFY.

(** ** builder/sdfg_builder.cpp: inserting states *)
(** [nid] chooses the ids of the new edges. A new state is empty (lines 43-59). *)
Section INSERT.
  Variable nid : edge -> nat.
  Definition mk (s d : nat) (c : cond) (a : assigns) : edge := let e := E 0 s d c a in E (nid e) s d c a.
  Definition without {A} (n : nat) (z : A) (f : nat -> A) : nat -> A := fun s => if s =? n then z else f s.
  (** lines 61-82 *)
  Definition add_state_before (g : cfg) (s n : nat) (is_start : bool) : cfg :=
    G (if is_start then n else g_start g)
      (filter (fun e => negb (e_dst e =? s)) (g_edges g) ++ map (fun e => mk (e_src e) n (e_cond e) []) (inn g s) ++ [mk n s (CBool true) []])
      (without n [] (g_blk g)) (without n None (g_ret g)).
  (** lines 84-104 *)
  Definition add_state_after (g : cfg) (s n : nat) (connect : bool) : cfg :=
    G (g_start g)
      (filter (fun e => negb (e_src e =? s)) (g_edges g) ++ map (fun e => mk n (e_dst e) (e_cond e) []) (out g s) ++ (if connect then [mk s n (CBool true) []] else []))
      (without n [] (g_blk g)) (without n None (g_ret g)).
  (** lines 289-334: add_loop; [init], [final], [early], [head], [bod], [upd] are the new
      states in creation order *)
  Definition assign_in (n : nat) (a : assigns) (g : cfg) : cfg :=
    G (g_start g) (map (fun e => if e_dst e =? n then E (e_id e) (e_src e) (e_dst e) (e_cond e) (e_asg e ++ a) else e) (g_edges g)) (g_blk g) (g_ret g).
  Definition add_empty (n : nat) (g : cfg) : cfg := G (g_start g) (g_edges g) (without n [] (g_blk g)) (without n None (g_ret g)).
  Definition add_edges (l : list edge) (g : cfg) : cfg := G (g_start g) (g_edges g ++ l) (g_blk g) (g_ret g).
  Definition add_loop (g : cfg) (s : nat) (it : string) (ini : expr) (c : cond) (u : expr) (init final early head bod upd : nat) : cfg :=
    let g1 := assign_in init [(it, ini)] (add_state_after g s init true) in
    let g2 := add_state_after g1 init final false in
    let g3 := add_edges [mk init early (CNot c) []; mk early final (CBool true) []] (add_empty early g2) in
    let g4 := add_edges [mk init head c []] (add_empty head g3) in
    let g5 := add_edges [mk head bod (CBool true) []] (add_empty bod g4) in
    add_edges [mk bod upd (CBool true) [(it, u)]; mk upd head c []; mk upd final (CNot c) []] (add_empty upd g5).

  Section PROOF.
    Variable I : nat -> list Z -> option Z.
    Variable g : cfg.
    Variables s n : nat.
    Hypothesis NS : new_state g n.
    Hypothesis SN : s <> n.

    Lemma no_out_n : out g n = [].
    Proof.
      destruct (out g n) as [|e l] eqn:O; [reflexivity|]. exfalso. assert (J: In e (out g n)) by (rewrite O; left; reflexivity).
      apply out_in in J as [J1 J2]. destruct (proj2 NS e J1). congruence.
    Qed.
    Lemma without_other {A} t (z : A) f : t <> n -> without n z f t = f t.
    Proof. intros N. unfold without. apply Nat.eqb_neq in N as ->. reflexivity. Qed.
    Lemma without_same {A} (z : A) f : without n z f n = z.
    Proof. unfold without. rewrite Nat.eqb_refl. reflexivity. Qed.

    Section BEFORE.
      Variable is_start : bool.
      Hypothesis NA : forall e, In e (inn g s) -> e_asg e = [].
      Notation g' := (add_state_before g s n is_start).
      Lemma before_in e : In e (g_edges g') <-> (In e (g_edges g) /\ e_dst e <> s) \/ (exists f, In f (g_edges g) /\ e_dst f = s /\ e = mk (e_src f) n (e_cond f) []) \/ e = mk n s (CBool true) [].
      Proof.
        simpl. rewrite !in_app_iff, filter_In, in_map_iff. simpl. rewrite negb_true_iff, Nat.eqb_neq. unfold inn. split.
        - intros [H|[(f & <- & H)|[<-|[]]]]; auto. right; left. exists f. apply filter_In in H as [H1 H2]. apply Nat.eqb_eq in H2. auto.
        - intros [H|[(f & H1 & H2 & ->)| ->]]; auto. right; left. exists f. split; [reflexivity|]. apply filter_In. split; [exact H1|apply Nat.eqb_eq; exact H2].
      Qed.
      Lemma before_out t : t <> n -> out g t = [] <-> out g' t = [].
      Proof.
        intros N. split; intros H.
        - destruct (out g' t) as [|e l] eqn:O; [reflexivity|]. exfalso. assert (J: In e (out g' t)) by (rewrite O; left; reflexivity).
          apply out_in in J as [J1 J2]. apply before_in in J1 as [[J1 _]|[(f & F1 & F2 & ->)| ->]].
          + assert (K: In e (out g t)) by (apply out_in; auto). rewrite H in K. destruct K.
          + assert (K: In f (out g t)) by (apply out_in; auto). rewrite H in K. destruct K.
          + simpl in J2. congruence.
        - destruct (out g t) as [|e l] eqn:O; [reflexivity|]. exfalso. assert (J: In e (out g t)) by (rewrite O; left; reflexivity).
          apply out_in in J as [J1 J2]. destruct (Nat.eq_dec (e_dst e) s) as [D|D].
          + assert (K: In (mk (e_src e) n (e_cond e) []) (out g' t)); [|rewrite H in K; destruct K]. apply out_in. split; [|exact J2]. apply before_in. right; left. exists e. auto.
          + assert (K: In e (out g' t)); [|rewrite H in K; destruct K]. apply out_in. split; [|exact J2]. apply before_in. auto.
      Qed.
      Lemma before_enter k st r st' : crun I g' k s st r st' -> crun I g' (S k) n st r st'.
      Proof.
        intros C. eapply C_next; [|exact C]. change s with (e_dst (mk n s (CBool true) [])). econstructor.
        - apply out_in. split; [|reflexivity]. apply before_in. auto.
        - simpl. rewrite without_same. reflexivity.
        - reflexivity.
        - reflexivity.
      Qed.
      Lemma before_fwd k t st r st' : crun I g k t st r st' -> t <> n -> exists k', crun I g' k' t st r st'.
      Proof.
        induction 1 as [t st st' r O Bk Rt|k t st t1 st1 r st' ST C IH]; intros N.
        - exists 0. apply C_ret; [apply before_out; auto|simpl; rewrite without_other; auto|simpl; rewrite without_other; auto].
        - inversion ST as [? ? sta e st2 He Bk T A]; subst. apply out_in in He as [H1 H2]. destruct (proj2 NS e H1) as [_ DN].
          destruct (IH DN) as (k' & C'). destruct (Nat.eq_dec (e_dst e) s) as [D|D].
          + exists (S (S k')). eapply C_next with (s1 := n).
            * change n with (e_dst (mk (e_src e) n (e_cond e) [])). econstructor; [|simpl; rewrite without_other; [exact Bk|exact N]|exact T|].
              -- apply out_in. split; [|exact H2]. apply before_in. right; left. exists e. auto.
              -- instantiate (1 := st1). rewrite (NA e) in A; [exact A|]. unfold inn. apply filter_In. split; [exact H1|apply Nat.eqb_eq; exact D].
            * apply before_enter. rewrite D in C'. exact C'.
          + exists (S k'). eapply C_next; [|exact C']. econstructor; [|simpl; rewrite without_other; [exact Bk|exact N]|exact T|exact A].
            apply out_in. split; [|exact H2]. apply before_in. auto.
      Qed.
      Lemma before_leave k st r st' : crun I g' k n st r st' -> exists k', k = S k' /\ crun I g' k' s st r st'.
      Proof.
        intros C. inversion C as [? ? ? ? _ _ Rt|k' ? ? t1 st1 ? ? ST C1]; subst; [simpl in Rt; rewrite without_same in Rt; discriminate|].
        inversion ST as [? ? sta e st2 He Bk T A]; subst. simpl in Bk. rewrite without_same in Bk. simpl in Bk. injection Bk as <-.
        apply out_in in He as [H1 H2]. apply before_in in H1 as [[H1 _]|[(f & F1 & F2 & ->)| ->]].
        - destruct (proj2 NS e H1). congruence.
        - destruct (proj2 NS f F1). simpl in H2. congruence.
        - simpl in A, C1. injection A as <-. exists k'. auto.
      Qed.
      Lemma before_bwd k : forall t st r st', crun I g' k t st r st' -> t <> n -> exists k', crun I g k' t st r st'.
      Proof.
        induction k as [k IH] using lt_wf_ind. intros t st r st' C N.
        inversion C as [? ? ? ? O Bk Rt|k1 ? ? t1 st1 ? ? ST C1]; subst.
        - exists 0. simpl in Bk, Rt. rewrite without_other in Bk by exact N. rewrite without_other in Rt by exact N. apply C_ret; auto. apply before_out; auto.
        - inversion ST as [? ? sta e st2 He Bk T A]; subst. simpl in Bk. rewrite without_other in Bk by exact N.
          apply out_in in He as [H1 H2]. apply before_in in H1 as [[H1 D]|[(f & F1 & F2 & ->)| ->]].
          + destruct (IH k1 (Nat.lt_succ_diag_r _) _ _ _ _ C1) as (k' & C'); [apply (proj2 NS); exact H1|]. exists (S k'). eapply C_next; [|exact C'].
            econstructor; eauto. apply out_in. auto.
          + simpl in H2, T, A, C1. injection A as <-. apply before_leave in C1 as (k2 & -> & C2).
            destruct (IH k2 (Nat.lt_lt_succ_r _ _ (Nat.lt_succ_diag_r _)) _ _ _ _ C2 SN) as (k' & C'). exists (S k'). eapply C_next; [|exact C'].
            rewrite <- F2. econstructor; [apply out_in; split; [exact F1|exact H2]|exact Bk|exact T|].
            rewrite (NA f); [reflexivity|]. unfold inn. apply filter_In. split; [exact F1|apply Nat.eqb_eq; exact F2].
          + simpl in H2. congruence.
      Qed.
    End BEFORE.

    Section AFTER.
      Hypothesis NA : forall e, In e (out g s) -> e_asg e = [].
      Hypothesis NR : g_ret g s = None.
      Notation g' := (add_state_after g s n true).
      Lemma after_in e : In e (g_edges g') <-> (In e (g_edges g) /\ e_src e <> s) \/ (exists f, In f (out g s) /\ e = mk n (e_dst f) (e_cond f) []) \/ e = mk s n (CBool true) [].
      Proof.
        simpl. rewrite !in_app_iff, filter_In, in_map_iff. simpl. rewrite negb_true_iff, Nat.eqb_neq. split.
        - intros [H|[(f & <- & H)|[<-|[]]]]; eauto.
        - intros [H|[(f & H1 & ->)| ->]]; eauto.
      Qed.
      Lemma after_out t : t <> n -> t <> s -> out g' t = out g t.
      Proof.
        intros N1 N2. unfold out at 1. simpl. rewrite !filter_app.
        assert (Z: filter (fun e => e_src e =? t) (map (fun e => mk n (e_dst e) (e_cond e) []) (out g s)) = []).
        { clear NA. induction (out g s) as [|e l IHl]; [reflexivity|]. simpl. apply not_eq_sym, Nat.eqb_neq in N1 as N3. rewrite N3. exact IHl. }
        rewrite Z. simpl. apply not_eq_sym, Nat.eqb_neq in N2 as N3. rewrite N3, app_nil_r. unfold out.
        clear - N2. induction (g_edges g) as [|e l IHl]; [reflexivity|]. simpl. destruct (Nat.eqb_spec (e_src e) s); simpl; destruct (Nat.eqb_spec (e_src e) t); simpl; rewrite ?IHl; try reflexivity; congruence.
      Qed.
      Lemma after_fwd k t st r st' : crun I g k t st r st' -> t <> n -> exists k', crun I g' k' t st r st'.
      Proof.
        induction 1 as [t st st' r O Bk Rt|k t st t1 st1 r st' ST C IH]; intros N.
        - destruct (Nat.eq_dec t s) as [->|NE]; [congruence|]. exists 0. apply C_ret; [rewrite after_out; auto|simpl; rewrite without_other; auto|simpl; rewrite without_other; auto].
        - inversion ST as [? ? sta e st2 He Bk T A]; subst. pose proof He as He'. apply out_in in He as [H1 H2]. destruct (proj2 NS e H1) as [_ DN].
          destruct (IH DN) as (k' & C'). destruct (Nat.eq_dec t s) as [->|NE].
          + exists (S (S k')). eapply C_next with (s1 := n) (st1 := sta).
            * change n with (e_dst (mk s n (CBool true) [])). econstructor; [|simpl; rewrite without_other; [exact Bk|exact N]|reflexivity|reflexivity].
              apply out_in. split; [|reflexivity]. apply after_in. auto.
            * eapply C_next; [|exact C']. change (e_dst e) with (e_dst (mk n (e_dst e) (e_cond e) [])). econstructor; [|simpl; rewrite without_same; reflexivity|exact T|].
              -- apply out_in. split; [|reflexivity]. apply after_in. right; left. exists e. auto.
              -- rewrite (NA e He') in A. exact A.
          + exists (S k'). eapply C_next; [|exact C']. econstructor; [|simpl; rewrite without_other; [exact Bk|exact N]|exact T|exact A]. rewrite after_out; auto.
      Qed.
      Lemma after_bwd k : forall t st r st', crun I g' k t st r st' -> t <> n -> exists k', crun I g k' t st r st'.
      Proof.
        induction k as [k IH] using lt_wf_ind. intros t st r st' C N.
        inversion C as [? ? ? ? O Bk Rt|k1 ? ? t1 st1 ? ? ST C1]; subst.
        - exists 0. simpl in Bk, Rt. rewrite without_other in Bk by exact N. rewrite without_other in Rt by exact N. destruct (Nat.eq_dec t s) as [->|NE]; [congruence|]. apply C_ret; auto. rewrite <- after_out; auto.
        - inversion ST as [? ? sta e st2 He Bk T A]; subst. simpl in Bk. rewrite without_other in Bk by exact N. destruct (Nat.eq_dec t s) as [->|NE].
          + apply out_in in He as [H1 H2]. apply after_in in H1 as [[_ D]|[(f & F1 & ->)| ->]]; [congruence|simpl in H2; congruence|].
            simpl in A, C1. injection A as <-.
            inversion C1 as [? ? ? ? _ _ Rt|k2 ? ? t2 st2 ? ? ST2 C2]; subst; [simpl in Rt; rewrite without_same in Rt; discriminate|].
            inversion ST2 as [? ? stc e2 st3 He2 Bk2 T2 A2]; subst. simpl in Bk2. rewrite without_same in Bk2. simpl in Bk2. injection Bk2 as <-.
            apply out_in in He2 as [G1 G2]. apply after_in in G1 as [[G1 _]|[(f & F1 & ->)| ->]].
            * destruct (proj2 NS e2 G1). congruence.
            * simpl in T2, A2, C2. injection A2 as <-. pose proof F1 as F2. apply out_in in F2 as [F2 F3].
              destruct (IH k2 (Nat.lt_lt_succ_r _ _ (Nat.lt_succ_diag_r _)) _ _ _ _ C2) as (k' & C'); [apply (proj2 NS); exact F2|]. exists (S k'). eapply C_next; [|exact C'].
              econstructor; [exact F1|exact Bk|exact T2|]. rewrite (NA f F1). reflexivity.
            * simpl in G2. congruence.
          + rewrite after_out in He by assumption. destruct (IH k1 (Nat.lt_succ_diag_r _) _ _ _ _ C1) as (k' & C'); [apply out_in in He as [He _]; apply (proj2 NS); exact He|].
            exists (S k'). eapply C_next; [|exact C']. econstructor; eauto.
      Qed.
    End AFTER.
  End PROOF.

  (** *** add_loop *)
  Section LOOP.
    Variable I : nat -> list Z -> option Z.
    Variable g : cfg.
    Variable s : nat.
    Variable it : string.
    Variable ini : expr.
    Variable c : cond.
    Variable u : expr.
    Variables init final early head bod upd : nat.
    Variable bb : block.
    Definition fresh_all : Prop := NoDup [s; init; final; early; head; bod; upd] /\ forall n, In n [init; final; early; head; bod; upd] -> new_state g n.
    Hypothesis FR : fresh_all.
    (** the loop, after the user has filled the body state with [bb] *)
    Definition filled : cfg := let g1 := add_loop g s it ini c u init final early head bod upd in
      G (g_start g1) (g_edges g1) (fun t => if t =? bod then bb else g_blk g1 t) (g_ret g1).
    Notation g' := filled.
    Notation loop := (NLoop KFor it ini c u (SCons (NBlock bb) [] SNil)).

    Lemma loop_in e : In e (g_edges g') -> (In e (g_edges g) /\ e_src e <> s) \/ (exists f, In f (out g s) /\ e = mk final (e_dst f) (e_cond f) []) \/
      In (e_src e, e_dst e, e_cond e, e_asg e) [(s, init, CBool true, [(it, ini)]); (init, early, CNot c, []); (early, final, CBool true, []); (init, head, c, []); (head, bod, CBool true, []);
        (bod, upd, CBool true, [(it, u)]); (upd, head, c, []); (upd, final, CNot c, [])].
    Proof.
      destruct FR as [ND NS]. simpl. rewrite <- !app_assoc. simpl. intros H. rewrite !in_app_iff in H. destruct H as [H|[H|H]].
      - apply filter_In in H as [H1 H2]. apply in_map_iff in H1 as (f & <- & H1). rewrite !in_app_iff in H1. destruct H1 as [H1|[H1|H1]].
        + apply filter_In in H1 as [H1 H3]. apply negb_true_iff, Nat.eqb_neq in H3. left.
          destruct (Nat.eqb_spec (e_dst f) init) as [D|D]; [|auto]. exfalso. destruct (NS init (or_introl eq_refl)) as [_ Q]. destruct (Q f H1). congruence.
        + exfalso. apply in_map_iff in H1 as (f0 & <- & H1). apply out_in in H1 as [H1 _]. destruct (NS init (or_introl eq_refl)) as [_ Q]. destruct (Q f0 H1) as [_ Q2].
          simpl in H2. apply Nat.eqb_neq in Q2. rewrite Q2 in H2. simpl in H2. rewrite Nat.eqb_refl in H2. discriminate.
        + destruct H1 as [<-|[]]. right; right. simpl. rewrite Nat.eqb_refl. left. reflexivity.
      - right; left. apply in_map_iff in H as (f & <- & H). apply out_in in H as [H H0]. simpl in H. apply in_map_iff in H as (f0 & <- & H). rewrite !in_app_iff in H. destruct H as [H|[H|H]].
        + exfalso. apply filter_In in H as [H _]. destruct (NS init (or_introl eq_refl)) as [_ Q]. destruct (Q f0 H) as [Q1 _]. destruct (e_dst f0 =? init); simpl in H0; congruence.
        + apply in_map_iff in H as (f1 & <- & H). exists f1. split; [exact H|]. apply out_in in H as [H _]. simpl. destruct (Nat.eqb_spec (e_dst f1) init) as [Q0|_]; [|reflexivity]. exfalso. destruct (NS init (or_introl eq_refl)) as [_ Q]. destruct (Q f1 H). congruence.
        + exfalso. destruct H as [<-|[]]. simpl in H0. rewrite Nat.eqb_refl in H0. simpl in H0. inversion ND as [|? ? N _]; subst. apply N. left. congruence.
      - right; right. simpl in H. repeat (destruct H as [<-|H]; [simpl; tauto|]). destruct H.
    Qed.
    Lemma loop_has src d cc a : In (src, d, cc, a) [(s, init, CBool true, [(it, ini)]); (init, early, CNot c, []); (early, final, CBool true, []); (init, head, c, []); (head, bod, CBool true, []);
        (bod, upd, CBool true, [(it, u)]); (upd, head, c, []); (upd, final, CNot c, [])] -> exists e, In e (out g' src) /\ e_dst e = d /\ e_cond e = cc /\ e_asg e = a.
    Proof.
      intros H. destruct FR as [ND NS].
      assert (K: forall e, In e [mk init early (CNot c) []; mk early final (CBool true) []; mk init head c []; mk head bod (CBool true) []; mk bod upd (CBool true) [(it, u)]; mk upd head c []; mk upd final (CNot c) []] -> In e (g_edges g')).
      { intros e He. cbn [filled g_edges add_loop]. simpl. rewrite <- !app_assoc. apply in_or_app. right. apply in_or_app. right. simpl in He |- *. tauto. }
      destruct H as [H|H].
      - injection H as <- <- <- <-. exists (E (e_id (mk s init (CBool true) [])) s init (CBool true) [(it, ini)]). split; [|auto]. apply out_in. split; [|reflexivity].
        simpl. rewrite <- !app_assoc. rewrite !in_app_iff. left. apply filter_In. split.
        + rewrite !map_app. apply in_or_app. right. apply in_or_app. right. left. simpl. rewrite Nat.eqb_refl. reflexivity.
        + simpl. inversion ND as [|? ? N _]; subst. apply negb_true_iff, Nat.eqb_neq. intros ->. apply N. left. reflexivity.
      - repeat (destruct H as [H|H]; [injection H as <- <- <- <-; match goal with |- exists e, In e (out _ ?a) /\ e_dst e = ?b /\ e_cond e = ?x /\ e_asg e = ?y => exists (mk a b x y) end; split; [apply out_in; split; [apply K; simpl; auto 10|reflexivity]|auto]|]). destruct H.
    Qed.
    Lemma blk_of t : g_blk g' t = if t =? bod then bb else if mem t [init; final; early; head; upd] then [] else g_blk g t.
    Proof.
      simpl. unfold without. destruct (t =? bod); [reflexivity|]. destruct (t =? upd), (t =? head), (t =? early), (t =? final), (t =? init); reflexivity.
    Qed.
    Lemma ret_of t : In t [init; final; early; head; bod; upd] -> g_ret g' t = None.
    Proof.
      intros H. simpl. unfold without. simpl in H. repeat (destruct H as [<-|H]; [rewrite ?Nat.eqb_refl; repeat match goal with |- context[if ?b then _ else _] => destruct b end; reflexivity|]). destruct H.
    Qed.
    Lemma empty_blk t : In t [init; final; early; head; upd] -> g_blk g' t = [].
    Proof.
      intros H. rewrite blk_of. destruct FR as [ND _]. destruct (Nat.eqb_spec t bod) as [->|D].
      - exfalso. repeat match goal with H : NoDup (_ :: _) |- _ => inversion H; clear H; subst end. simpl in *. intuition congruence.
      - assert (M: mem t [init; final; early; head; upd] = true) by (apply mem_in; exact H). rewrite M. reflexivity.
    Qed.
    (** a step out of one of the loop's states (or of [s]) follows one of the listed edges *)
    Lemma loop_step t st t1 st1 : In t [s; init; early; head; bod; upd] -> cstep I g' t st t1 st1 ->
      exists cc a sta, In (t, t1, cc, a) [(s, init, CBool true, [(it, ini)]); (init, early, CNot c, []); (early, final, CBool true, []); (init, head, c, []); (head, bod, CBool true, []);
        (bod, upd, CBool true, [(it, u)]); (upd, head, c, []); (upd, final, CNot c, [])] /\ exec_block I st (g_blk g' t) = Some sta /\ cev (env_of sta) cc = Some true /\ exec_assigns sta a = Some st1.
    Proof.
      intros Ht ST. inversion ST as [? ? sta e st2 He Bk T A]; subst. apply out_in in He as [H1 H2]. apply loop_in in H1 as [[H1 D]|[(f & H1 & D)|H1]].
      - exfalso. destruct Ht as [->|Ht]; [congruence|]. destruct FR as [_ NS]. assert (M: new_state g t) by (apply NS; simpl in *; tauto).
        destruct (proj2 M e H1). congruence.
      - exfalso. rewrite D in H2. simpl in H2. destruct FR as [ND _]. repeat match goal with H : NoDup (_ :: _) |- _ => inversion H; clear H; subst end. simpl in *. intuition congruence.
      - rewrite H2 in H1. eauto 8.
    Qed.
    Lemma take t d cc a st sta st1 : In (t, d, cc, a) [(s, init, CBool true, [(it, ini)]); (init, early, CNot c, []); (early, final, CBool true, []); (init, head, c, []); (head, bod, CBool true, []);
        (bod, upd, CBool true, [(it, u)]); (upd, head, c, []); (upd, final, CNot c, [])] -> exec_block I st (g_blk g' t) = Some sta -> cev (env_of sta) cc = Some true -> exec_assigns sta a = Some st1 -> cstep I g' t st d st1.
    Proof. intros H. destruct (loop_has _ _ _ _ H) as (e & He & <- & <- & <-). intros. econstructor; eauto. Qed.
    Lemma ND' : s <> init /\ s <> early /\ s <> head /\ s <> bod /\ s <> upd /\ init <> early /\ init <> head /\ init <> bod /\ init <> upd /\ early <> head /\ early <> bod /\ early <> upd /\ head <> bod /\ head <> upd /\ bod <> upd /\ s <> final.
    Proof.
      destruct FR as [ND _]. clear - ND. repeat (apply NoDup_cons_iff in ND as [?N ND]). simpl in *.
      repeat match goal with N : ~ (_ \/ _) |- _ => apply Decidable.not_or in N as [? N] end. repeat split; congruence.
    Qed.
    Lemma not_ret k t st r st' : In t [init; final; early; head; bod; upd] -> crun I g' k t st r st' -> exists k1 t1 st1, k = S k1 /\ cstep I g' t st t1 st1 /\ crun I g' k1 t1 st1 r st'.
    Proof. intros Ht C. inversion C as [? ? ? ? _ _ Rt|k1 ? ? t1 st1 ? ? ST C1]; subst; [rewrite (ret_of t Ht) in Rt; discriminate|eauto 8]. Qed.

    (** the edges that left [s] leave [final] *)
    Lemma final_has f : In f (out g s) -> In (mk final (e_dst f) (e_cond f) []) (out g' final).
    Proof.
      intros H. apply out_in. split; [|reflexivity]. simpl. rewrite <- !app_assoc. apply in_or_app. right. apply in_or_app. left.
      apply in_map_iff. exists (mk init (e_dst f) (e_cond f) []). split; [reflexivity|]. apply out_in. split; [|reflexivity]. simpl.
      apply in_map_iff. exists (mk init (e_dst f) (e_cond f) []). split.
      - simpl. apply out_in in H as [H _]. destruct FR as [_ NS]. destruct (NS init (or_introl eq_refl)) as [_ Q]. destruct (Q f H) as [_ Q1]. apply Nat.eqb_neq in Q1. rewrite Q1. reflexivity.
      - rewrite !in_app_iff. right; left. apply in_map_iff. exists f. auto.
    Qed.
    Lemma other_edge e : In e (g_edges g) -> e_src e <> s -> In e (g_edges g').
    Proof.
      intros H N. destruct FR as [_ NS]. destruct (NS init (or_introl eq_refl)) as [_ Q]. destruct (Q e H) as [Q1 Q2]. apply Nat.eqb_neq in Q1. apply Nat.eqb_neq in Q2.
      simpl. rewrite <- !app_assoc. apply in_or_app. left. apply filter_In. rewrite Q1. split; [|reflexivity]. apply in_map_iff. exists e. rewrite Q2. split; [reflexivity|].
      rewrite !in_app_iff. left. apply filter_In. split; [exact H|]. apply negb_true_iff, Nat.eqb_neq. exact N.
    Qed.
    Lemma not_new_has t e : ~ In t [s; init; final; early; head; bod; upd] -> In e (out g' t) <-> In e (out g t).
    Proof.
      intros N. rewrite !out_in. split; intros [H1 H2]; split; try exact H2.
      - apply loop_in in H1 as [[H1 _]|[(f & _ & H1)|H1]]; [exact H1| |].
        + exfalso. apply N. rewrite H1 in H2. simpl in *. tauto.
        + exfalso. apply N. rewrite H2 in H1. simpl in H1. repeat (destruct H1 as [H1|H1]; [injection H1 as H1 _ _ _; simpl; tauto|]). destruct H1.
      - apply other_edge; [exact H1|]. intros E. apply N. left. congruence.
    Qed.
    Lemma same_blk t : ~ In t [s; init; final; early; head; bod; upd] -> g_blk g' t = g_blk g t /\ g_ret g' t = g_ret g t.
    Proof.
      intros N. simpl. unfold without. simpl in N. destruct (Nat.eqb_spec t bod) as [->|_]; [tauto|]. destruct (Nat.eqb_spec t upd) as [->|_]; [tauto|]. destruct (Nat.eqb_spec t head) as [->|_]; [tauto|].
      destruct (Nat.eqb_spec t early) as [->|_]; [tauto|]. destruct (Nat.eqb_spec t final) as [->|_]; [tauto|]. destruct (Nat.eqb_spec t init) as [->|_]; [tauto|]. auto.
    Qed.

    (** one test of the condition at [upd] *)
    Lemma loop_bwd k : forall st r st', crun I g' k upd st r st' ->
      exists st2 k', k' < k /\ runl I it c u (SCons (NBlock bb) [] SNil) st ONorm st2 /\ crun I g' k' final st2 r st'.
    Proof.
      pose proof ND' as (?N & ?N & ?N & ?N & ?N & ?N & ?N & ?N & ?N & ?N & ?N & ?N & ?N & ?N & ?N & ?N).
      induction k as [k IH] using lt_wf_ind. intros st r st' C. apply not_ret in C as (k1 & t1 & st1 & -> & ST & C1); [|simpl; tauto].
      apply loop_step in ST as (cc & a & sta & H & Bk & T & A); [|simpl; tauto]. rewrite empty_blk in Bk by (simpl; tauto). simpl in Bk. injection Bk as <-.
      simpl in H. repeat destruct H as [H|H]; try (exfalso; congruence); try contradiction; injection H as <- <- <-; simpl in A; injection A as <-.
      - apply not_ret in C1 as (k2 & t2 & st2 & -> & ST & C2); [|simpl; tauto]. apply loop_step in ST as (cc & a & sta & H & Bk & T2 & A); [|simpl; tauto]. rewrite empty_blk in Bk by (simpl; tauto). simpl in Bk. injection Bk as <-.
        simpl in H. repeat destruct H as [H|H]; try (exfalso; congruence); try contradiction. injection H as <- <- <-. simpl in A. injection A as <-.
        apply not_ret in C2 as (k3 & t3 & st3 & -> & ST & C3); [|simpl; tauto]. apply loop_step in ST as (cc & a & sta & H & Bk & T3 & A); [|simpl; tauto]. rewrite blk_of, Nat.eqb_refl in Bk.
        simpl in H. repeat destruct H as [H|H]; try (exfalso; congruence); try contradiction. injection H as <- <- <-. simpl in A.
        destruct (eval (env_of sta) u) as [v|] eqn:V; [|discriminate]. injection A as <-.
        destruct (IH k3) with (2 := C3) as (st4 & k' & LT & RL & C4); [lia|]. exists st4, k'. split; [lia|]. split; [|exact C4].
        eapply R_lnext; [exact T| |left; reflexivity|exact V|exact RL]. eapply R_cons; [apply R_block; exact Bk|reflexivity|apply R_nil].
      - exists st, k1. split; [lia|]. split; [|exact C1]. apply R_lend. simpl in T. destruct (cev (env_of st) c) as [[]|]; [discriminate|reflexivity|discriminate].
    Qed.
    Lemma loop_fwd st0 o st2 : runl I it c u (SCons (NBlock bb) [] SNil) st0 o st2 -> o = ONorm -> forall k r st', crun I g' k final st2 r st' -> exists k', crun I g' k' upd st0 r st'.
    Proof.
      intros RL. remember (SCons (NBlock bb) [] SNil) as p eqn:EP. remember it as i1 eqn:EI. remember c as c1 eqn:EC. remember u as u1 eqn:EU. revert EP EI EC EU.
      induction RL as [i0 c0 u0 p st Cf|i0 c0 u0 p st o1 st1 v o st' Ct Rb D V RL IH|i0 c0 u0 p st st' Ct Rb|i0 c0 u0 p st r st' Ct Rb]; intros EP EI EC EU EO k r0 stf C; subst i0 c0 u0 p; try subst o.
      - exists (S k). eapply C_next; [|exact C]. eapply take; [simpl; tauto|rewrite empty_blk by (simpl; tauto); reflexivity|simpl; rewrite Cf; reflexivity|reflexivity].
      - destruct (IH eq_refl eq_refl eq_refl eq_refl eq_refl k r0 stf C) as (k' & C').
        assert (Bk: exec_block I st bb = Some st1).
        { inversion Rb as [|? ? ? ? ? ? ? ? R1 R2 R3|? ? ? ? ? ? R1 NO]; subst; inversion R1; subst.
          - simpl in R2. injection R2 as <-. inversion R3; subst. assumption.
          - congruence. }
        exists (S (S (S k'))). eapply C_next; [|eapply C_next; [|eapply C_next; [|exact C']]].
        + eapply (take upd head c []); [simpl; tauto|rewrite empty_blk by (simpl; tauto); reflexivity|exact Ct|reflexivity].
        + eapply (take head bod (CBool true) []); [simpl; tauto|rewrite empty_blk by (simpl; tauto); reflexivity|reflexivity|reflexivity].
        + eapply (take bod upd (CBool true) [(it, u)]); [simpl; tauto|rewrite blk_of, Nat.eqb_refl; exact Bk|reflexivity|]. simpl. rewrite V. reflexivity.
      - exfalso. inversion Rb as [|? ? ? ? ? ? ? ? R1 R2 R3|? ? ? ? ? ? R1 NO]; subst; inversion R1; subst. inversion R3.
      - discriminate.
    Qed.
    (** the first test, at [init], is like those at [upd] *)
    Lemma init_to_upd k st r st' : crun I g' k init st r st' -> exists k', k' <= k /\ crun I g' k' upd st r st'.
    Proof.
      pose proof ND' as (?N & ?N & ?N & ?N & ?N & ?N & ?N & ?N & ?N & ?N & ?N & ?N & ?N & ?N & ?N & ?N).
      intros C. apply not_ret in C as (k1 & t1 & st1 & -> & ST & C1); [|simpl; tauto].
      apply loop_step in ST as (cc & a & sta & H & Bk & T & A); [|simpl; tauto]. rewrite empty_blk in Bk by (simpl; tauto). simpl in Bk. injection Bk as <-.
      simpl in H. repeat destruct H as [H|H]; try (exfalso; congruence); try contradiction; injection H as <- <- <-; simpl in A; injection A as <-.
      + apply not_ret in C1 as (k2 & t2 & st2 & -> & ST & C2); [|simpl; tauto]. apply loop_step in ST as (cc & a & sta & H & Bk & T2 & A); [|simpl; tauto]. rewrite empty_blk in Bk by (simpl; tauto). simpl in Bk. injection Bk as <-.
        simpl in H. repeat destruct H as [H|H]; try (exfalso; congruence); try contradiction; injection H as <- <- <-; simpl in A; injection A as <-.
        exists (S k2). split; [lia|]. eapply C_next; [|exact C2]. eapply take; [simpl; tauto|rewrite empty_blk by (simpl; tauto); reflexivity|exact T|reflexivity].
      + exists (S k1). split; [lia|]. eapply C_next; [|exact C1]. eapply take; [simpl; tauto|rewrite empty_blk by (simpl; tauto); reflexivity|exact T|reflexivity].
    Qed.
    Lemma upd_to_init k st r st' : crun I g' k upd st r st' -> exists k', crun I g' k' init st r st'.
    Proof.
      pose proof ND' as (?N & ?N & ?N & ?N & ?N & ?N & ?N & ?N & ?N & ?N & ?N & ?N & ?N & ?N & ?N & ?N).
      intros C. apply not_ret in C as (k1 & t1 & st1 & -> & ST & C1); [|simpl; tauto].
        apply loop_step in ST as (cc & a & sta & H & Bk & T & A); [|simpl; tauto]. rewrite empty_blk in Bk by (simpl; tauto). simpl in Bk. injection Bk as <-.
        simpl in H. repeat destruct H as [H|H]; try (exfalso; congruence); try contradiction; injection H as <- <- <-; simpl in A; injection A as <-.
        + exists (S k1). eapply C_next; [|exact C1]. eapply take; [simpl; tauto|rewrite empty_blk by (simpl; tauto); reflexivity|exact T|reflexivity].
        + exists (S (S k1)). eapply C_next; [|eapply C_next; [|exact C1]].
          * eapply take with (d := early); [simpl; tauto|rewrite empty_blk by (simpl; tauto); reflexivity|exact T|reflexivity].
          * eapply take; [simpl; tauto|rewrite empty_blk by (simpl; tauto); reflexivity|reflexivity|reflexivity].
    Qed.
    Lemma s_blk : g_blk g' s = g_blk g s /\ g_ret g' s = g_ret g s.
    Proof.
      pose proof ND' as (?N & ?N & ?N & ?N & ?N & ?N & ?N & ?N & ?N & ?N & ?N & ?N & ?N & ?N & ?N & ?N). simpl. unfold without.
      destruct (Nat.eqb_spec s bod); [congruence|]. destruct (Nat.eqb_spec s upd); [congruence|]. destruct (Nat.eqb_spec s head); [congruence|].
      destruct (Nat.eqb_spec s early); [congruence|]. destruct (Nat.eqb_spec s final); [congruence|]. destruct (Nat.eqb_spec s init); [congruence|]. auto.
    Qed.
    (** from [s]: its block, the loop, then [final] *)
    Lemma from_s_bwd k st r st' : g_ret g s = None -> crun I g' k s st r st' ->
      exists sta stb k', k' < k /\ exec_block I st (g_blk g s) = Some sta /\ run I loop sta ONorm stb /\ crun I g' k' final stb r st'.
    Proof.
      intros NR. destruct s_blk as [SB SR]. pose proof ND' as (?N & ?N & ?N & ?N & ?N & ?N & ?N & ?N & ?N & ?N & ?N & ?N & ?N & ?N & ?N & ?N).
        intros C. inversion C as [? ? ? ? _ _ Rt|k1 ? ? t1 st1 ? ? ST C1]; subst; [rewrite SR, NR in Rt; discriminate|].
        apply loop_step in ST as (cc & a & sta & H & Bk & T & A); [|simpl; tauto]. rewrite SB in Bk.
        simpl in H. repeat destruct H as [H|H]; try (exfalso; congruence); try contradiction; injection H as <- <- <-. simpl in A.
        destruct (eval (env_of sta) ini) as [v|] eqn:V; [|discriminate]. injection A as <-.
        apply init_to_upd in C1 as (k2 & LE & C2). destruct (loop_bwd k2 _ _ _ C2) as (st2 & k' & LT & RL & C3).
        exists sta, st2, k'. split; [clear - LE LT; lia|]. split; [exact Bk|]. split; [|exact C3]. eapply R_loop; [exact V|exact RL].
    Qed.
    Lemma from_s_fwd k st sta stb r st' : exec_block I st (g_blk g s) = Some sta -> run I loop sta ONorm stb -> crun I g' k final stb r st' -> exists k', crun I g' k' s st r st'.
    Proof.
        destruct s_blk as [SB SR]. intros Bk RL C. assert (RR: exists v, eval (env_of sta) ini = Some v /\ runl I it c u (SCons (NBlock bb) [] SNil) (wr sta it [] v) ONorm stb) by (inversion RL; subst; eauto). destruct RR as (v & V & RL1).
        destruct (loop_fwd _ _ _ RL1 eq_refl k r st' C) as (k2 & C2). destruct (upd_to_init _ _ _ _ C2) as (k3 & C3).
        exists (S k3). eapply C_next; [|exact C3]. eapply (take s init (CBool true) [(it, ini)]); [simpl; tauto|rewrite SB; exact Bk|reflexivity|]. simpl. rewrite V. reflexivity.
    Qed.
    Lemma final_step st t1 st1 : cstep I g' final st t1 st1 <-> exists f, In f (out g s) /\ t1 = e_dst f /\ cev (env_of st) (e_cond f) = Some true /\ st1 = st.
    Proof.
      split.
      - intros ST. inversion ST as [? ? sta e st2 He Bk T A]; subst. rewrite empty_blk in Bk by (simpl; tauto). simpl in Bk. injection Bk as <-.
        apply out_in in He as [H1 H2]. apply loop_in in H1 as [[H1 D]|[(f & H1 & ->)|H1]].
        + exfalso. destruct FR as [_ NS]. destruct (proj2 (NS final (or_intror (or_introl eq_refl))) e H1). congruence.
        + exists f. simpl in T, A. injection A as <-. auto.
        + exfalso. destruct FR as [ND _]. clear - ND H1 H2. repeat (apply NoDup_cons_iff in ND as [?N ND]). simpl in *.
          repeat match goal with N : ~ (_ \/ _) |- _ => apply Decidable.not_or in N as [? N] end. rewrite H2 in H1. repeat destruct H1 as [H1|H1]; congruence.
      - intros (f & H & -> & T & ->). change (e_dst f) with (e_dst (mk final (e_dst f) (e_cond f) [])). econstructor; [apply final_has; exact H|rewrite empty_blk by (simpl; tauto); reflexivity|exact T|reflexivity].
    Qed.
  End LOOP.
End INSERT.
