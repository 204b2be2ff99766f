(** * Structuring a control-flow graph: simulation in both directions *)
From Coq Require Import ZArith List Bool String Lia PeanoNat.
From Verif Require Import Sym SymFuns IR IRFacts Cfg.
Import ListNotations.
Local Open Scope string_scope.
Local Open Scope list_scope.
Local Open Scope nat_scope.

Lemma mem_in s l : mem s l = true <-> In s l.
Proof. unfold mem. rewrite existsb_exists. split; [intros (x & H & E); apply Nat.eqb_eq in E as ->; exact H|intros H; exists s; split; [exact H|apply Nat.eqb_refl]]. Qed.
Lemma mem_not s l : mem s l = false <-> ~ In s l.
Proof. rewrite <- mem_in. destruct (mem s l); split; intros; congruence. Qed.

Section SIM.
  Variable I : nat -> list Z -> option Z.
  Variable g : cfg.
  Variable back : edge -> bool.
  Variable pdom : nat -> option nat.
  Variable dom : nat -> nat -> bool.
  Hypothesis HP : proper g back dom.
  Hypothesis ID : unique_ids g.
  Notation B := (body g back dom).
  Notation header := (header g back).
  Notation exits := (exits g back dom).
  Notation exit_state := (exit_state g back dom).
  Notation region := (region g back pdom dom).

  Lemma same_id (l : list edge) e f : NoDup (map e_id l) -> In e l -> In f l -> e_id e = e_id f -> e = f.
  Proof.
    induction l as [|x l IH]; intros N He Hf E; [destruct He|]. inversion N as [|? ? N1 N2]; subst.
    destruct He as [->|He], Hf as [->|Hf]; auto.
    - elim N1. rewrite E. apply in_map. exact Hf.
    - elim N1. rewrite <- E. apply in_map. exact He.
  Qed.
  Lemma out_in s e : In e (out g s) <-> In e (g_edges g) /\ e_src e = s.
  Proof. unfold out. rewrite filter_In, Nat.eqb_eq. reflexivity. Qed.
  Lemma exits_in h e : In e (exits h) <-> In e (g_edges g) /\ In (e_src e) (B h) /\ ~ In (e_dst e) (B h) /\ back e = false.
  Proof.
    unfold Cfg.exits. rewrite filter_In. rewrite !andb_true_iff, !negb_true_iff. rewrite mem_in, mem_not. intuition.
  Qed.
  Lemma single_in l x : single l = Some x -> In x l.
  Proof. destruct l as [|y r]; simpl; [discriminate|]. destruct (forallb (Nat.eqb y) r); [|discriminate]. intros E. injection E as ->. left. reflexivity. Qed.
  Lemma exit_edge h x : exit_state h = Some x -> exists e, In e (exits h) /\ e_dst e = x.
  Proof.
    unfold Cfg.exit_state. intros H.
    assert (J: In x (map e_dst (exits h))).
    { destruct (single (map e_dst (exits h))) eqn:E; [injection H as ->; apply single_in; exact E|]. apply single_in in H. apply filter_In in H. tauto. }
    apply in_map_iff in J as (e & E & J). exists e. auto.
  Qed.
  Lemma exit_out h x : exit_state h = Some x -> ~ In x (B h).
  Proof. intros H. apply exit_edge in H as (e & H & <-). apply exits_in in H. tauto. Qed.
  Lemma memE_in e l : (forall f, In f l -> In f (g_edges g)) -> In e (g_edges g) -> memE e l = true -> In e l.
  Proof.
    intros HL He H. apply existsb_exists in H as (f & Hf & E). apply Nat.eqb_eq in E.
    rewrite (same_id (g_edges g) e f ID He (HL f Hf) E). exact Hf.
  Qed.
  Lemma memE_not e l : memE e l = false -> ~ In e l.
  Proof. intros H J. assert (memE e l = true); [|congruence]. apply existsb_exists. exists e. split; [exact J|apply Nat.eqb_refl]. Qed.

  (** Where the traversal is: inside the innermost loop [h], at a state which is not
      inside a loop nested in it (it may be the header of one). *)
  Definition ok (h : option nat) (s : nat) : Prop :=
    match h with
    | None => True
    | Some h => header h = true /\ In s (B h) /\ forall h', header h' = true -> In h' (B h) -> h' <> h -> In s (B h') -> s = h'
    end.
  Definition okb (h : option nat) (breaks : list edge) : Prop :=
    (forall e, In e breaks -> In e (g_edges g)) /\
    match h with
    | None => True
    | Some h => (forall e, In e breaks -> back e = false /\ ~ In (e_dst e) (B h)) /\ incl (exits h) breaks
    end.
  Definition here (h : option nat) (visited : list nat) (first : bool) (s : nat) : Prop :=
    if first then h = Some s else forall hd, h = Some hd -> In hd visited.
  Definition isS (h : option nat) : bool := match h with Some _ => true | None => false end.

  Lemma step_ok h s e breaks visited first : ok h s -> okb h breaks -> here h visited first s -> negb first && header s = false ->
    In e (out g s) -> back e = false -> memE e breaks = false -> ok h (e_dst e).
  Proof.
    intros O [OB1 OB] HE HH He Hb Hm. destruct h as [hd|]; [|exact Logic.I]. destruct O as (O1 & O2 & O3). destruct OB as [OB2 OB3].
    apply out_in in He as [He Es]. split; [exact O1|].
    assert (D: In (e_dst e) (B hd)).
    { destruct (mem (e_dst e) (B hd)) eqn:M; [apply mem_in; exact M|]. apply mem_not in M. exfalso. eapply memE_not; [exact Hm|].
      apply OB3, exits_in. rewrite Es. auto. }
    split; [exact D|]. intros h' H1 H2 H3 H4. destruct (one_entry _ _ _ HP h' e H1 He H4) as [Q|Q]; [|exact Q].
    rewrite Es in Q. pose proof (O3 h' H1 H2 H3 Q) as ->. rewrite H1, andb_true_r in HH. apply negb_false_iff in HH as ->. simpl in HE. congruence.
  Qed.
  Lemma back_ok h s e breaks visited first hd : ok h s -> okb h breaks -> here h visited first s -> negb first && header s = false ->
    In e (out g s) -> back e = true -> h = Some hd -> e_dst e = hd.
  Proof.
    intros O [OB1 OB] HE HH He Hb ->. destruct O as (O1 & O2 & O3). apply out_in in He as [He Es].
    destruct (one_level _ _ _ HP hd e O1 He Hb) as [Q|(h' & H1 & H2 & H3 & H4)]; [rewrite Es; exact O2|exact Q|].
    rewrite Es in H4. pose proof (O3 h' H1 H2 H3 H4) as ->. rewrite H1, andb_true_r in HH. apply negb_false_iff in HH as ->. simpl in HE. congruence.
  Qed.
  Lemma break_ok h s e breaks hd : ok h s -> okb h breaks -> In e (out g s) -> memE e breaks = true -> h = Some hd -> exit_state hd = Some (e_dst e).
  Proof.
    intros O [OB1 OB] He Hm ->. destruct O as (O1 & O2 & O3). destruct OB as [OB2 OB3]. apply out_in in He as [He Es].
    apply memE_in in Hm; [|exact OB1|exact He]. destruct (OB2 e Hm) as [Q1 Q2]. apply (one_exit _ _ _ HP); [exact O1|]. apply exits_in. rewrite Es. auto.
  Qed.
  (** entering a loop *)
  Lemma enter_ok s x : header s = true -> exit_state s = Some x -> ok (Some s) s.
  Proof.
    intros H X. split; [exact H|]. split; [apply (has_header _ _ _ HP); exact H|]. intros h' H1 H2 H3 H4. exfalso.
    destruct (nested _ _ _ HP s h' H H1 H2 H3) as [N1 _]. destruct (nested _ _ _ HP h' s H1 H H4 (not_eq_sym H3)) as [_ N2].
    apply (exit_out s x X). apply N1, N2. exact X.
  Qed.
  Lemma enter_okb h s breaks visited : ok h s -> okb h breaks -> (h = None -> breaks = []) -> header s = true -> here h visited false s -> ~ In s visited -> okb (Some s) (exits s ++ breaks).
  Proof.
    intros O [OB1 OB] NB H HE NV. split.
    - intros e J. apply in_app_or in J as [J|J]; [apply exits_in in J; tauto|auto].
    - split; [|intros e J; apply in_or_app; left; exact J]. intros e J. apply in_app_or in J as [J|J].
      + apply exits_in in J. tauto.
      + destruct h as [hd|]; [|rewrite (NB eq_refl) in J; destruct J]. destruct O as (O1 & O2 & O3). destruct OB as [OB2 OB3].
        destruct (OB2 e J) as [Q1 Q2]. split; [exact Q1|]. intros Q. apply Q2.
        destruct (Nat.eq_dec s hd) as [->|D]; [exact Q|]. destruct (nested _ _ _ HP hd s O1 H O2 D) as [N _]. apply N. exact Q.
  Qed.
  Lemma leave_ok h s x visited : ok h s -> header s = true -> exit_state s = Some x -> here h visited false s -> ~ In s visited -> ok h x.
  Proof.
    intros O H X HE NV. destruct h as [hd|]; [|exact Logic.I]. destruct O as (O1 & O2 & O3). simpl in HE. pose proof (HE hd eq_refl) as V.
    assert (D: s <> hd) by (intros ->; auto). destruct (nested _ _ _ HP hd s O1 H O2 D) as [N1 N2]. split; [exact O1|]. split; [apply N2; exact X|].
    intros h' H1 H2 H3 H4. destruct (exit_edge s x X) as (e & He & <-). pose proof (exit_out s _ X) as NX. apply exits_in in He as (E1 & E2 & E3 & E4).
    destruct (one_entry _ _ _ HP h' e H1 E1 H4) as [Q|Q]; [|exact Q]. exfalso.
    destruct (Nat.eq_dec h' s) as [->|D2]; [auto|].
    destruct (disjoint _ _ _ HP s h' (e_src e) H H1 E2 Q) as [Z|Z].
    - destruct (nested _ _ _ HP s h' H H1 Z D2) as [M _]. apply NX, M. exact H4.
    - apply D2. symmetry. apply O3; assumption.
  Qed.

  (* ---------------------------------------------------------------- *)
  (** ** From the graph to the structured program *)
  Definition finish (h exit : option nat) (p : seq) (n : nat) (st : store) (r : string) (st' : store) : Prop :=
    runs I p st (ORet r) st' \/
    (exists x n1 st1, exit = Some x /\ ok h x /\ n1 <= n /\ runs I p st ONorm st1 /\ crun I g n1 x st1 r st') \/
    (exists hd n1 st1, h = Some hd /\ n1 < n /\ runs I p st OCont st1 /\ crun I g n1 hd st1 r st') \/
    (exists hd x n1 st1, h = Some hd /\ exit_state hd = Some x /\ n1 <= n /\ runs I p st OBrk st1 /\ crun I g n1 x st1 r st').

  Lemma finish_map h exit exit' p q n n' st st0 r st' : n' <= n ->
    (forall o st1, runs I p st o st1 -> o <> ONorm -> runs I q st0 o st1) ->
    (forall x n1 st1, exit = Some x -> ok h x -> n1 <= n' -> runs I p st ONorm st1 -> crun I g n1 x st1 r st' -> finish h exit' q n st0 r st') ->
    finish h exit p n' st r st' -> finish h exit' q n st0 r st'.
  Proof.
    intros L HO HN [F|[(x & n1 & st1 & E & O & L1 & R & C)|[(hd & n1 & st1 & E & L1 & R & C)|(hd & x & n1 & st1 & E & X & L1 & R & C)]]].
    - left. apply HO; [exact F|discriminate].
    - exact (HN x n1 st1 E O L1 R C).
    - right; right; left. exists hd, n1, st1. repeat split; auto; [lia|]. apply HO; [exact R|discriminate].
    - right; right; right. exists hd, x, n1, st1. repeat split; auto; [lia|]. apply HO; [exact R|discriminate].
  Qed.
  Lemma emit_runs b a p st st1 st2 o st' : exec_block I st b = Some st1 -> exec_assigns st1 a = Some st2 -> runs I p st2 o st' -> runs I (emit b a p) st o st'.
  Proof.
    intros H1 H2 H3. destruct b as [|x b].
    - destruct a as [|y a]; simpl in *; [congruence|]. eapply R_cons; [apply R_block; exact H1|exact H2|exact H3].
    - simpl. eapply R_cons; [apply R_block; exact H1|exact H2|exact H3].
  Qed.
  Lemma finish_emit h exit b a p n n' st st1 st2 r st' : n' <= n -> exec_block I st b = Some st1 -> exec_assigns st1 a = Some st2 ->
    finish h exit p n' st2 r st' -> finish h exit (emit b a p) n st r st'.
  Proof.
    intros L H1 H2. apply finish_map; [exact L|intros o z R _; eapply emit_runs; eauto|].
    intros x n1 z E O L1 R C. right; left. exists x, n1, z. repeat split; auto; [lia|]. eapply emit_runs; eauto.
  Qed.
  Lemma finish_cons h exit m p a n n' st st1 st2 r st' : n' <= n -> run I m st ONorm st1 -> exec_assigns st1 a = Some st2 ->
    finish h exit p n' st2 r st' -> finish h exit (SCons m a p) n st r st'.
  Proof.
    intros L H1 H2. apply finish_map; [exact L|intros o z R _; eapply R_cons; eauto|].
    intros x n1 z E O L1 R C. right; left. exists x, n1, z. repeat split; auto; [lia|]. eapply R_cons; eauto.
  Qed.

  Lemma branch_run (F : edge -> option (cond * seq)) es l e c q st o st' :
    (forall e c q, F e = Some (c, q) -> c = e_cond e) -> all_some (map F es) = Some l -> In e es -> F e = Some (c, q) ->
    (forall f, In f es -> f <> e -> cev (env_of st) (e_cond f) = Some false) -> cev (env_of st) (e_cond e) = Some true -> NoDup es ->
    runs I q st o st' -> runb I (brs_of l) st o st'.
  Proof.
    intros HF. revert l. induction es as [|x es IH]; intros l HA He E HX HT ND R; [destruct He|]. simpl in HA.
    destruct (F x) as [[c0 q0]|] eqn:E0; [|discriminate]. destruct (all_some (map F es)) as [l'|] eqn:EA; [|discriminate]. injection HA as <-.
    inversion ND as [|? ? N1 N2]; subst. simpl. pose proof (HF _ _ _ E0) as ->. destruct He as [->|He].
    - rewrite E in E0. injection E0 as _ <-. apply R_btrue; assumption.
    - apply R_bfalse; [apply HX; [left; reflexivity|intros ->; auto]|]. apply IH; auto. intros f Hf. apply HX. right. exact Hf.
  Qed.
  Lemma nodup_out s : NoDup (out g s).
  Proof.
    unfold out. assert (N: NoDup (g_edges g)) by (eapply NoDup_map_inv; exact ID). apply NoDup_filter. exact N.
  Qed.

  Section FWD.
    Hypothesis EX : exclusive g.

    Lemma while_run s x p : (forall n st r st', crun I g n s st r st' -> finish (Some s) (Some x) p n st r st') -> exit_state s = Some x ->
      forall n st r st', crun I g n s st r st' -> runw I p st (ORet r) st' \/ exists n1 st1, n1 <= n /\ runw I p st ONorm st1 /\ crun I g n1 x st1 r st'.
    Proof.
      intros HB X n. induction n as [n IH] using lt_wf_ind. intros st r st' C.
      destruct (HB n st r st' C) as [F|[(x' & n1 & st1 & E & O & L1 & R & C1)|[(hd & n1 & st1 & E & L1 & R & C1)|(hd & x' & n1 & st1 & E & X' & L1 & R & C1)]]].
      - left. apply R_wret. exact F.
      - exfalso. injection E as <-. destruct O as (_ & O & _). exact (exit_out s x X O).
      - injection E as <-. destruct (IH n1 L1 st1 r st' C1) as [F|(n2 & st2 & L2 & F & C2)].
        + left. eapply R_wnext; [exact R|right; reflexivity|exact F].
        + right. exists n2, st2. split; [lia|]. split; [|exact C2]. eapply R_wnext; [exact R|right; reflexivity|exact F].
      - right. injection E as <-. rewrite X in X'. injection X' as <-. exists n1, st1. split; [exact L1|]. split; [apply R_wbreak; exact R|exact C1].
    Qed.

    Theorem forward_sim : forall fuel s exit breaks visited first h p, region fuel (Some s) exit breaks visited first (isS h) = Some p ->
      ok h s -> okb h breaks -> (h = None -> breaks = []) -> here h visited first s ->
      forall n st r st', crun I g n s st r st' -> finish h exit p n st r st'.
    Proof.
      induction fuel as [|f IH]; [discriminate|]. intros s exit breaks visited first h p. cbn [Cfg.region].
      destruct (match exit with Some x => s =? x | None => false end) eqn:EXIT.
      { intros E O _ _ _ n st r st' C. injection E as <-. destruct exit as [x|]; [|discriminate]. apply Nat.eqb_eq in EXIT as ->.
        right; left. exists x, n, st. repeat split; auto. apply R_nil. }
      destruct (mem s visited) eqn:V; [discriminate|]. apply mem_not in V.
      destruct (negb first && header s) eqn:HH.
      { apply andb_true_iff in HH as [HF HD]. apply negb_true_iff in HF as ->. destruct (exit_state s) as [x|] eqn:X; [|discriminate].
        destruct (region f (Some s) (Some x) (exits s ++ breaks) visited true true) as [b|] eqn:RB; [|discriminate].
        destruct (region f (Some x) exit breaks (s :: visited) false (isS h)) as [q|] eqn:RQ; [|discriminate].
        intros E O OB NB HE n st r st' C. injection E as <-.
        assert (HBODY: forall n st r st', crun I g n s st r st' -> finish (Some s) (Some x) b n st r st').
        { apply (IH s (Some x) (exits s ++ breaks) visited true (Some s) b RB).
          - eapply enter_ok; eauto.
          - eapply enter_okb; eauto.
          - discriminate.
          - reflexivity. }
        destruct (while_run s x b HBODY X n st r st' C) as [F|(n1 & st1 & L1 & F & C1)].
        - left. apply R_exit; [apply R_while; exact F|discriminate].
        - eapply finish_cons; [exact L1|apply R_while; exact F|reflexivity|].
          eapply (IH x exit breaks (s :: visited) false h q RQ); [eapply leave_ok; eauto|exact OB|exact NB| |exact C1].
          intros hd E. right. exact (HE hd E). }
      assert (HNEXT: forall hd, h = Some hd -> here h visited first s -> In hd (s :: visited)).
      { intros hd -> HE. destruct first; [injection HE as ->; left; reflexivity|right; apply HE; reflexivity]. }
      destruct (out g s) as [|e [|e2 es]] eqn:OUT.
      - destruct (g_ret g s) as [r0|] eqn:RET; [|discriminate]. intros E O OB NB HE n st r st' C. injection E as <-.
        inversion C as [? ? ? ? _ X1 X2|? ? ? ? ? ? ? X1 X2]; subst.
        + left. eapply emit_runs; [exact X1|reflexivity|]. rewrite RET in X2. injection X2 as ->. apply R_exit; [apply R_return|discriminate].
        + inversion X1 as [? ? ? ? ? J]; subst. rewrite OUT in J. destruct J.
      - destruct (e_cond e) as [[|]| | | | | | |] eqn:EC; try discriminate. intros E O OB NB HE n st r st' C.
        assert (He: In e (out g s)) by (rewrite OUT; left; reflexivity).
        inversion C as [? ? ? ? X1 X2 X3|n0 ? ? s1 st1 ? ? X1 C1]; subst; [congruence|].
        inversion X1 as [? ? stb e' st2 J1 J2 J3 J4]; subst. rewrite OUT in J1. destruct J1 as [<-|[]].
        destruct (back e) eqn:BK.
        + destruct h as [hd|]; [|discriminate]. simpl in E. injection E as <-. right; right; left.
          pose proof (back_ok _ _ _ _ _ _ hd O OB HE HH He BK eq_refl) as D. rewrite D in C1.
          exists hd, n0, st1. repeat split; auto. eapply emit_runs; [exact J2|exact J4|]. apply R_exit; [apply R_continue|discriminate].
        + destruct (memE e breaks) eqn:BR.
          * destruct h as [hd|]; [|discriminate]. simpl in E. injection E as <-. right; right; right.
            pose proof (break_ok _ _ _ _ hd O OB He BR eq_refl) as D.
            exists hd, (e_dst e), n0, st1. repeat split; auto. eapply emit_runs; [exact J2|exact J4|]. apply R_exit; [apply R_break|discriminate].
          * destruct (region f (Some (e_dst e)) exit breaks (s :: visited) false (isS h)) as [q|] eqn:RQ; [|discriminate]. simpl in E. injection E as <-.
            eapply finish_emit with (n' := n0); [lia|exact J2|exact J4|].
            eapply (IH (e_dst e) exit breaks (s :: visited) false h q RQ); [eapply step_ok; eauto|exact OB|exact NB| |exact C1].
            intros hd Eh. apply HNEXT; auto.
      - set (m := merge_point g pdom s exit (s :: visited)). rewrite <- OUT.
        set (F := fun e0 => option_map (fun r => (e_cond e0, emit [] (e_asg e0) r))
           (if back e0 then if isS h then Some (SCons NContinue [] SNil) else None
            else if memE e0 breaks then if isS h then Some (SCons NBreak [] SNil) else None
            else region f (Some (e_dst e0)) m breaks (s :: visited) false (isS h))).
        destruct (all_some (map F (out g s))) as [l|] eqn:AS; [|discriminate].
        destruct (region f m exit breaks (s :: visited) false (isS h)) as [q|] eqn:RQ; [|discriminate].
        intros E O OB NB HE n st r st' C. injection E as <-.
        inversion C as [? ? ? ? X1 X2 X3|n0 ? ? s1 st1 ? ? X1 C1]; subst; [congruence|].
        inversion X1 as [? ? stb e' st2 J1 J2 J3 J4]; subst. rename e' into e0.
        eapply finish_emit with (n' := S n0); [lia|exact J2|reflexivity|].
        assert (HF: forall e c q, F e = Some (c, q) -> c = e_cond e).
        { intros e1 c1 q1. unfold F. match goal with |- option_map _ ?X = _ -> _ => destruct X; [|discriminate] end. simpl. intros Z. injection Z as <- _. reflexivity. }
        assert (HS: exists c q0, F e0 = Some (c, q0)).
        { clear - AS J1. revert l AS. induction (out g s) as [|x l0 IHl]; intros l AS; [destruct J1|]. simpl in AS.
          destruct (F x) as [[c0 q0]|] eqn:E0; [|discriminate]. destruct (all_some (map F l0)); [|discriminate]. destruct J1 as [->|J1]; eauto. }
        destruct HS as (c & q0 & HS). pose proof (HF _ _ _ HS) as ->.
        assert (BR: forall o z, runs I q0 stb o z -> run I (NIf (brs_of l)) stb o z).
        { intros o z R. apply R_if. eapply branch_run; [exact HF|exact AS|exact J1|exact HS| |exact J3|apply nodup_out|exact R].
          intros f0 Hf D. eapply EX; [exact J1|exact Hf|auto|exact J3]. }
        assert (FIN: finish h m q0 (S n0) stb r st').
        { unfold F in HS. destruct (back e0) eqn:BK.
          - destruct h as [hd|]; [|discriminate]. simpl in HS. injection HS as <-. right; right; left.
            pose proof (back_ok _ _ _ _ _ _ hd O OB HE HH J1 BK eq_refl) as D. rewrite D in C1.
            exists hd, n0, st1. repeat split; auto. apply (emit_runs [] (e_asg e0) _ stb stb st1); [reflexivity|exact J4|]. apply R_exit; [apply R_continue|discriminate].
          - destruct (memE e0 breaks) eqn:BRK.
            + destruct h as [hd|]; [|discriminate]. simpl in HS. injection HS as <-. right; right; right.
              pose proof (break_ok _ _ _ _ hd O OB J1 BRK eq_refl) as D.
              exists hd, (e_dst e0), n0, st1. repeat split; auto. apply (emit_runs [] (e_asg e0) _ stb stb st1); [reflexivity|exact J4|]. apply R_exit; [apply R_break|discriminate].
            + destruct (region f (Some (e_dst e0)) m breaks (s :: visited) false (isS h)) as [q1|] eqn:R1; [|discriminate]. simpl in HS. injection HS as <-.
              apply (finish_emit h m [] (e_asg e0) q1 (S n0) n0 stb stb st1); [lia|reflexivity|exact J4|].
              eapply (IH (e_dst e0) m breaks (s :: visited) false h q1 R1); [eapply step_ok; eauto|exact OB|exact NB| |exact C1].
              intros hd Eh. apply HNEXT; auto. }
        eapply finish_map; [apply Nat.le_refl| | |exact FIN].
        + intros o z R NO. apply R_exit; [apply BR; exact R|exact NO].
        + intros x n1 z Em Ox L1 R C2. eapply finish_cons; [exact L1|apply BR; exact R|reflexivity|].
          rewrite Em in RQ. eapply (IH x exit breaks (s :: visited) false h q RQ); [exact Ox|exact OB|exact NB| |exact C2].
          intros hd Eh. apply HNEXT; auto.
    Qed.
  End FWD.
  (* ---------------------------------------------------------------- *)
  (** ** From the structured program to the graph *)
  Inductive csteps : nat -> store -> nat -> store -> Prop :=
  | CS_nil s st : csteps s st s st
  | CS_cons s st s1 st1 s2 st2 : cstep I g s st s1 st1 -> csteps s1 st1 s2 st2 -> csteps s st s2 st2.
  Lemma csteps_app s st s1 st1 s2 st2 : csteps s st s1 st1 -> csteps s1 st1 s2 st2 -> csteps s st s2 st2.
  Proof. induction 1; intros; [assumption|econstructor; eauto]. Qed.
  Lemma csteps_run s st s1 st1 r st' : csteps s st s1 st1 -> (exists n, crun I g n s1 st1 r st') -> exists n, crun I g n s st r st'.
  Proof. induction 1; intros J; [exact J|]. destruct (IHcsteps J) as (n & K). exists (S n). econstructor; eauto. Qed.

  Definition back_to (h exit : option nat) (s : nat) (st : store) (o : outcome) (st' : store) : Prop :=
    match o with
    | ORet r => exists n, crun I g n s st r st'
    | ONorm => exists x, exit = Some x /\ ok h x /\ csteps s st x st'
    | OCont => exists hd, h = Some hd /\ csteps s st hd st'
    | OBrk => exists hd x, h = Some hd /\ exit_state hd = Some x /\ csteps s st x st'
    end.
  Lemma back_step h exit s st s1 st1 o st' : csteps s st s1 st1 -> back_to h exit s1 st1 o st' -> back_to h exit s st o st'.
  Proof.
    intros C. destruct o as [| | |r]; simpl.
    - intros (x & E & O & J). exists x. repeat split; auto. eapply csteps_app; eauto.
    - intros (hd & x & E & X & J). exists hd, x. repeat split; auto. eapply csteps_app; eauto.
    - intros (hd & E & J). exists hd. split; auto. eapply csteps_app; eauto.
    - intros J. eapply csteps_run; eauto.
  Qed.
  Lemma emit_inv b a p st o st' : runs I (emit b a p) st o st' -> exists st1 st2, exec_block I st b = Some st1 /\ exec_assigns st1 a = Some st2 /\ runs I p st2 o st'.
  Proof.
    intros H. assert (C: (b = [] /\ a = []) \/ emit b a p = SCons (NBlock b) a p) by (destruct b, a; simpl; auto).
    destruct C as [[-> ->]|C]; [exists st, st; auto|]. rewrite C in H.
    inversion H as [|? ? ? ? ? ? ? ? R1 R2 R3|? ? ? ? ? ? R1 N]; subst; inversion R1; subst; [eauto|congruence].
  Qed.
  Lemma jump_inv m a p st o st' : runs I (SCons m a p) st o st' ->
    match m with NContinue => o = OCont /\ st' = st | NBreak => o = OBrk /\ st' = st | NReturn r => o = ORet r /\ st' = st | _ => True end.
  Proof. intros H. inversion H as [|? ? ? ? ? ? ? ? R1 R2 R3|? ? ? ? ? ? R1 N]; subst; inversion R1; subst; auto. Qed.
  Lemma branch_inv (F : edge -> option (cond * seq)) es l st o st' :
    (forall e c q, F e = Some (c, q) -> c = e_cond e) -> all_some (map F es) = Some l -> runb I (brs_of l) st o st' ->
    (o = ONorm /\ st' = st /\ forall e, In e es -> cev (env_of st) (e_cond e) = Some false) \/
    exists e q, In e es /\ F e = Some (e_cond e, q) /\ cev (env_of st) (e_cond e) = Some true /\ runs I q st o st'.
  Proof.
    intros HF. revert l. induction es as [|x es IH]; intros l HA R.
    - simpl in HA. injection HA as <-. inversion R; subst. left. repeat split. intros e [].
    - simpl in HA. destruct (F x) as [[c0 q0]|] eqn:E0; [|discriminate]. destruct (all_some (map F es)) as [l'|] eqn:EA; [|discriminate]. injection HA as <-.
      pose proof (HF _ _ _ E0) as ->. simpl in R. inversion R as [|? ? ? ? ? ? C1 R1|? ? ? ? ? ? C1 R1]; subst.
      + right. exists x, q0. repeat split; auto. left. reflexivity.
      + destruct (IH _ eq_refl R1) as [(-> & -> & HFalse)|(e & q & H1 & H2 & H3 & H4)].
        * left. repeat split. intros e [<-|He]; auto.
        * right. exists e, q. repeat split; auto. right. exact H1.
  Qed.
  Lemma while_inv s x p : (forall st o st', runs I p st o st' -> back_to (Some s) (Some x) s st o st') -> exit_state s = Some x ->
    forall st o st', runw I p st o st' -> match o with ORet r => exists n, crun I g n s st r st' | ONorm => csteps s st x st' | _ => False end.
  Proof.
    intros HB X st o st' R. remember p as p0 eqn:EP. revert EP.
    induction R as [p1 st o1 st1 o st' R1 D R2 IH|p1 st st' R1|p1 st r st' R1]; intros ->; pose proof (HB _ _ _ R1) as K.
    - assert (C: csteps s st s st1).
      { destruct D as [->| ->]; simpl in K.
        - destruct K as (x' & E & O & _). injection E as <-. exfalso. destruct O as (_ & O & _). exact (exit_out s x X O).
        - destruct K as (hd & E & K). injection E as <-. exact K. }
      specialize (IH HB eq_refl). destruct o; try contradiction; [eapply csteps_app; eauto|eapply csteps_run; eauto].
    - simpl in K. destruct K as (hd & x' & E & X' & K). injection E as <-. rewrite X in X'. injection X' as <-. exact K.
    - exact K.
  Qed.

  Section BWD.
    Hypothesis TO : total g.
    Theorem backward_sim : forall fuel s exit breaks visited first h p, region fuel (Some s) exit breaks visited first (isS h) = Some p ->
      ok h s -> okb h breaks -> (h = None -> breaks = []) -> here h visited first s ->
      forall st o st', runs I p st o st' -> back_to h exit s st o st'.
    Proof.
      induction fuel as [|f IH]; [discriminate|]. intros s exit breaks visited first h p. cbn [Cfg.region].
      destruct (match exit with Some x => s =? x | None => false end) eqn:EXIT.
      { intros E O _ _ _ st o st' R. injection E as <-. destruct exit as [x|]; [|discriminate]. apply Nat.eqb_eq in EXIT as ->.
        inversion R; subst. exists x. repeat split; auto. apply CS_nil. }
      destruct (mem s visited) eqn:V; [discriminate|]. apply mem_not in V.
      destruct (negb first && header s) eqn:HH.
      { apply andb_true_iff in HH as [HF HD]. apply negb_true_iff in HF as ->. destruct (exit_state s) as [x|] eqn:X; [|discriminate].
        destruct (region f (Some s) (Some x) (exits s ++ breaks) visited true true) as [b|] eqn:RB; [|discriminate].
        destruct (region f (Some x) exit breaks (s :: visited) false (isS h)) as [q|] eqn:RQ; [|discriminate].
        intros E O OB NB HE st o st' R. injection E as <-.
        assert (HBODY: forall st o st', runs I b st o st' -> back_to (Some s) (Some x) s st o st').
        { apply (IH s (Some x) (exits s ++ breaks) visited true (Some s) b RB).
          - eapply enter_ok; eauto.
          - eapply enter_okb; eauto.
          - discriminate.
          - reflexivity. }
        inversion R as [|? ? ? ? st1 st2 ? ? R1 R2 R3|? ? ? ? ? ? R1 N]; subst; inversion R1 as [| | |? ? ? ? W| | | |]; subst.
        - pose proof (while_inv s x b HBODY X _ _ _ W) as K. simpl in K, R2. injection R2 as <-. eapply back_step; [exact K|].
          eapply (IH x exit breaks (s :: visited) false h q RQ); [eapply leave_ok; eauto|exact OB|exact NB| |exact R3].
          intros hd E. right. exact (HE hd E).
        - pose proof (while_inv s x b HBODY X _ _ _ W) as K. destruct o; try contradiction; exact K. }
      assert (HNEXT: forall hd, h = Some hd -> here h visited first s -> In hd (s :: visited)).
      { intros hd -> HE. destruct first; [injection HE as ->; left; reflexivity|right; apply HE; reflexivity]. }
      destruct (out g s) as [|e [|e2 es]] eqn:OUT.
      - destruct (g_ret g s) as [r0|] eqn:RET; [|discriminate]. intros E O OB NB HE st o st' R. injection E as <-.
        apply emit_inv in R as (st1 & st2 & R1 & R2 & R3). simpl in R2. injection R2 as <-. apply jump_inv in R3 as [-> ->].
        exists 0. apply C_ret; assumption.
      - destruct (e_cond e) as [[|]| | | | | | |] eqn:EC; try discriminate. intros E O OB NB HE st o st' R.
        assert (He: In e (out g s)) by (rewrite OUT; left; reflexivity).
        assert (ST: forall st1 st2, exec_block I st (g_blk g s) = Some st1 -> exec_assigns st1 (e_asg e) = Some st2 -> csteps s st (e_dst e) st2).
        { intros st1 st2 R1 R2. econstructor; [|apply CS_nil]. econstructor; eauto. rewrite EC. reflexivity. }
        destruct (back e) eqn:BK.
        + destruct h as [hd|]; [|discriminate]. simpl in E. injection E as <-.
          pose proof (back_ok _ _ _ _ _ _ hd O OB HE HH He BK eq_refl) as D.
          apply emit_inv in R as (st1 & st2 & R1 & R2 & R3). apply jump_inv in R3 as [-> ->]. exists hd. split; [reflexivity|]. rewrite <- D. eauto.
        + destruct (memE e breaks) eqn:BR.
          * destruct h as [hd|]; [|discriminate]. simpl in E. injection E as <-.
            pose proof (break_ok _ _ _ _ hd O OB He BR eq_refl) as D.
            apply emit_inv in R as (st1 & st2 & R1 & R2 & R3). apply jump_inv in R3 as [-> ->]. exists hd, (e_dst e). repeat split; eauto.
          * destruct (region f (Some (e_dst e)) exit breaks (s :: visited) false (isS h)) as [q|] eqn:RQ; [|discriminate]. simpl in E. injection E as <-.
            apply emit_inv in R as (st1 & st2 & R1 & R2 & R3). eapply back_step; [eauto|].
            eapply (IH (e_dst e) exit breaks (s :: visited) false h q RQ); [eapply step_ok; eauto|exact OB|exact NB| |exact R3].
            intros hd Eh. apply HNEXT; auto.
      - set (m := merge_point g pdom s exit (s :: visited)). rewrite <- OUT.
        set (F := fun e0 => option_map (fun r => (e_cond e0, emit [] (e_asg e0) r))
           (if back e0 then if isS h then Some (SCons NContinue [] SNil) else None
            else if memE e0 breaks then if isS h then Some (SCons NBreak [] SNil) else None
            else region f (Some (e_dst e0)) m breaks (s :: visited) false (isS h))).
        destruct (all_some (map F (out g s))) as [l|] eqn:AS; [|discriminate].
        destruct (region f m exit breaks (s :: visited) false (isS h)) as [q|] eqn:RQ; [|discriminate].
        intros E O OB NB HE st o st' R. injection E as <-.
        apply emit_inv in R as (stb & st2 & R1 & R2 & R3). simpl in R2. injection R2 as <-.
        assert (HF: forall e c q, F e = Some (c, q) -> c = e_cond e).
        { intros e1 c1 q1. unfold F. match goal with |- option_map _ ?X = _ -> _ => destruct X; [|discriminate] end. simpl. intros Z. injection Z as <- _. reflexivity. }
        assert (BB: forall o z, run I (NIf (brs_of l)) stb o z -> back_to h m s st o z).
        { intros o0 z RI. inversion RI as [| |? ? ? ? RB| | | | |]; subst. destruct (branch_inv F (out g s) l _ _ _ HF AS RB) as [(_ & _ & AF)|(e0 & q0 & J1 & HS & J3 & RQ0)].
          - exfalso. destruct (TO s stb) as (e0 & He0 & T0); [rewrite OUT; simpl; lia|]. rewrite (AF e0 He0) in T0. discriminate.
          - assert (ST: forall st2, exec_assigns stb (e_asg e0) = Some st2 -> csteps s st (e_dst e0) st2).
            { intros st2 R2. econstructor; [|apply CS_nil]. econstructor; eauto. }
            unfold F in HS. destruct (back e0) eqn:BK.
            + destruct h as [hd|]; [|discriminate]. simpl isS in HS. cbv iota in HS. cbn [option_map] in HS. assert (EQ: q0 = emit [] (e_asg e0) (SCons NContinue [] SNil)) by congruence. subst q0.
              pose proof (back_ok _ _ _ _ _ _ hd O OB HE HH J1 BK eq_refl) as D.
              apply emit_inv in RQ0 as (st1 & st2 & Q1 & Q2 & Q3). simpl in Q1. injection Q1 as <-. apply jump_inv in Q3 as [-> ->]. exists hd. split; [reflexivity|]. rewrite <- D. eauto.
            + destruct (memE e0 breaks) eqn:BRK.
              * destruct h as [hd|]; [|discriminate]. simpl isS in HS. cbv iota in HS. cbn [option_map] in HS. assert (EQ: q0 = emit [] (e_asg e0) (SCons NBreak [] SNil)) by congruence. subst q0.
                pose proof (break_ok _ _ _ _ hd O OB J1 BRK eq_refl) as D.
                apply emit_inv in RQ0 as (st1 & st2 & Q1 & Q2 & Q3). simpl in Q1. injection Q1 as <-. apply jump_inv in Q3 as [-> ->]. exists hd, (e_dst e0). repeat split; eauto.
              * destruct (region f (Some (e_dst e0)) m breaks (s :: visited) false (isS h)) as [q1|] eqn:RR; [|discriminate]. cbn [option_map] in HS. assert (EQ: q0 = emit [] (e_asg e0) q1) by congruence. subst q0.
                apply emit_inv in RQ0 as (st1 & st2 & Q1 & Q2 & Q3). simpl in Q1. injection Q1 as <-. eapply back_step; [eauto|].
                eapply (IH (e_dst e0) m breaks (s :: visited) false h q1 RR); [eapply step_ok; eauto|exact OB|exact NB| |exact Q3].
                intros hd Eh. apply HNEXT; auto. }
        inversion R3 as [|? ? ? ? st1 st2 ? ? Z1 Z2 Z3|? ? ? ? ? ? Z1 N]; subst.
        + simpl in Z2. injection Z2 as <-. destruct (BB _ _ Z1) as (x & Em & Ox & CS). eapply back_step; [exact CS|].
          rewrite Em in RQ. eapply (IH x exit breaks (s :: visited) false h q RQ); [exact Ox|exact OB|exact NB| |exact Z3].
          intros hd Eh. apply HNEXT; auto.
        + pose proof (BB _ _ Z1) as K. destruct o; [congruence|exact K|exact K|exact K].
    Qed.
  End BWD.
End SIM.
