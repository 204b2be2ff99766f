(** * C51: structuring a control-flow graph *)
From Coq Require Import ZArith List Bool String Lia PeanoNat.
From Verif Require Import Sym SymFacts SymFuns IR IRFacts PassCFGProps Cfg CfgProofs.
Import ListNotations.
Local Open Scope string_scope.
Local Open Scope list_scope.
Local Open Scope nat_scope.

(** [p] does what [g] does: it terminates from the same stores, with the same
    return value and the same final store, and it never ends without returning. *)
Definition behaves_as (I : nat -> list Z -> option Z) (g : cfg) (p : seq) : Prop :=
  (forall st r st', (exists n, crun I g n (g_start g) st r st') <-> runs I p st (ORet r) st') /\
  (forall st o st', runs I p st o st' -> exists r, o = ORet r).

Theorem C51_structuring_partial : forall I g back pdom dom fuel p,
  proper g back dom -> unique_ids g -> exclusive g -> total g ->
  structure g back pdom dom fuel = Some p -> behaves_as I g p.
Proof.
  intros I g back pdom dom fuel p HP ID EX TO HS.
  assert (OKB: okb g back dom None []) by (split; [intros e []|exact Logic.I]).
  assert (BW: forall st o st', runs I p st o st' -> back_to I g back dom None None (g_start g) st o st').
  { intros st o st' R. eapply (backward_sim I g back pdom dom HP ID TO fuel (g_start g) None [] [] false None p HS Logic.I OKB); [reflexivity| |exact R]. discriminate. }
  split.
  - intros st r st'. split.
    + intros (n & C). assert (F: finish I g back dom None None p n st r st').
      { eapply (forward_sim I g back pdom dom HP ID EX fuel (g_start g) None [] [] false None p HS Logic.I OKB); [reflexivity| |exact C]. discriminate. }
      destruct F as [F|[(x & n1 & st1 & E & _)|[(hd & n1 & st1 & E & _)|(hd & x & n1 & st1 & E & _)]]]; [exact F| | |]; discriminate.
    + intros R. exact (BW _ _ _ R).
  - intros st o st' R. apply BW in R. destruct o as [| | |r]; simpl in R.
    + destruct R as (x & E & _). discriminate.
    + destruct R as (hd & x & E & _). discriminate.
    + destruct R as (hd & E & _). discriminate.
    + exists r. reflexivity.
Qed.

(** Where the graph terminates the program terminates in the same way, even if some
    state has stores for which no edge can be taken. *)
Theorem C51_terminating_runs : forall I g back pdom dom fuel p n st r st',
  proper g back dom -> unique_ids g -> exclusive g -> structure g back pdom dom fuel = Some p ->
  crun I g n (g_start g) st r st' -> runs I p st (ORet r) st'.
Proof.
  intros I g back pdom dom fuel p n st r st' HP ID EX HS C.
  assert (OKB: okb g back dom None []) by (split; [intros e []|exact Logic.I]).
  assert (F: finish I g back dom None None p n st r st').
  { eapply (forward_sim I g back pdom dom HP ID EX fuel (g_start g) None [] [] false None p HS Logic.I OKB); [reflexivity| |exact C]. discriminate. }
  destruct F as [F|[(x & n1 & st1 & E & _)|[(hd & n1 & st1 & E & _)|(hd & x & n1 & st1 & E & _)]]]; [exact F| | |]; discriminate.
Qed.

(** Without loops nothing is assumed about their nesting, for any post-dominators. *)
Theorem C51_acyclic : forall I g pdom dom fuel p,
  unique_ids g -> exclusive g -> total g -> structure g (fun _ => false) pdom dom fuel = Some p -> behaves_as I g p.
Proof.
  intros I g pdom dom fuel p ID EX TO HS.
  assert (NH: forall h, header g (fun _ => false) h = true -> False).
  { intros h H. apply existsb_exists in H as (e & _ & H). discriminate. }
  apply (C51_structuring_partial I g (fun _ => false) pdom dom fuel p); try assumption.
  constructor; intros; exfalso; eapply NH; eassumption.
Qed.

(* ---------------------------------------------------------------- *)
(** * Deciding the hypotheses *)
Section DEC.
  Variable g : cfg.
  Variable back : edge -> bool.
  Variable dom : nat -> nat -> bool.
  Notation B := (body g back dom).
  Definition headers : list nat := map e_dst (filter back (g_edges g)).
  Definition optb (o : option nat) (f : nat -> bool) : bool := match o with Some x => f x | None => true end.
  Definition properb : bool :=
    forallb (fun h => mem h (B h) &&
      forallb (fun e => match exit_state g back dom h with Some x => x =? e_dst e | None => false end) (exits g back dom h) &&
      forallb (fun h' => negb (mem h' (B h)) || (h' =? h) || forallb (fun s => mem s (B h)) (B h') && optb (exit_state g back dom h') (fun x => mem x (B h))) headers &&
      forallb (fun h' => negb (existsb (fun s => mem s (B h')) (B h)) || mem h' (B h) || mem h (B h')) headers &&
      forallb (fun e => negb (mem (e_dst e) (B h)) || mem (e_src e) (B h) || (e_dst e =? h)) (g_edges g) &&
      forallb (fun e => negb (back e) || negb (mem (e_src e) (B h)) || (e_dst e =? h) ||
        existsb (fun h' => mem h' (B h) && negb (h' =? h) && mem (e_src e) (B h')) headers) (g_edges g)) headers.
  Lemma header_in h : header g back h = true <-> In h headers.
  Proof.
    unfold header, headers, inn. rewrite existsb_exists, in_map_iff. split; intros (e & H).
    - destruct H as [H Bk]. apply filter_In in H as [H E]. apply Nat.eqb_eq in E. exists e. split; [exact E|]. apply filter_In. auto.
    - destruct H as [E H]. apply filter_In in H as [H Bk]. exists e. split; [|exact Bk]. apply filter_In. split; [exact H|apply Nat.eqb_eq; exact E].
  Qed.
  Lemma properb_ok : properb = true -> proper g back dom.
  Proof.
    intros H.
    assert (K: forall h, header g back h = true -> _) by (intros h J; apply header_in in J; exact (proj1 (forallb_forall _ _) H h J)). clear H.
    constructor.
    - intros h J. specialize (K h J). rewrite !andb_true_iff in K. destruct K as (((((K & _) & _) & _) & _) & _). apply mem_in. exact K.
    - intros h e J He. specialize (K h J). rewrite !andb_true_iff in K. destruct K as (((((_ & K) & _) & _) & _) & _).
      rewrite forallb_forall in K. specialize (K e He). destruct (exit_state g back dom h); [|discriminate]. apply Nat.eqb_eq in K. congruence.
    - intros h h' J J' I1 N. specialize (K h J). rewrite !andb_true_iff in K. destruct K as (((((_ & _) & K) & _) & _) & _).
      rewrite forallb_forall in K. apply header_in in J'. specialize (K h' J'). apply orb_true_iff in K as [K|K].
      + apply orb_true_iff in K as [K|K]; [apply negb_true_iff in K; apply mem_not in K; contradiction|apply Nat.eqb_eq in K; contradiction].
      + apply andb_true_iff in K as [K1 K2]. split.
        * intros s Hs. rewrite forallb_forall in K1. apply mem_in. auto.
        * intros x X. rewrite X in K2. apply mem_in. exact K2.
    - intros h h' s J J' I1 I2. specialize (K h J). rewrite !andb_true_iff in K. destruct K as (((((_ & _) & _) & K) & _) & _).
      rewrite forallb_forall in K. apply header_in in J'. specialize (K h' J'). rewrite !orb_true_iff in K. destruct K as [[K|K]|K].
      + apply negb_true_iff in K. exfalso. assert (existsb (fun s => mem s (B h')) (B h) = true); [|congruence]. apply existsb_exists. exists s. split; [exact I1|apply mem_in; exact I2].
      + left. apply mem_in. exact K.
      + right. apply mem_in. exact K.
    - intros h e J He I1. specialize (K h J). rewrite !andb_true_iff in K. destruct K as (((((_ & _) & _) & _) & K) & _).
      rewrite forallb_forall in K. specialize (K e He). rewrite !orb_true_iff in K. destruct K as [[K|K]|K].
      + apply negb_true_iff, mem_not in K. contradiction.
      + left. apply mem_in. exact K.
      + right. apply Nat.eqb_eq. exact K.
    - intros h e J He Bk I1. specialize (K h J). rewrite !andb_true_iff in K. destruct K as (((((_ & _) & _) & _) & _) & K).
      rewrite forallb_forall in K. specialize (K e He). rewrite !orb_true_iff in K. destruct K as [[[K|K]|K]|K].
      + rewrite Bk in K. discriminate.
      + apply negb_true_iff, mem_not in K. contradiction.
      + left. apply Nat.eqb_eq. exact K.
      + right. apply existsb_exists in K as (h' & H1 & K). rewrite !andb_true_iff in K. destruct K as ((K1 & K2) & K3). exists h'.
        apply header_in in H1. apply mem_in in K1, K3. apply negb_true_iff, Nat.eqb_neq in K2. auto.
  Qed.
  (** one edge, or two with complementary conditions *)
  Definition binary : bool := forallb (fun e0 => match out g (e_src e0) with
    | [_] => true
    | [e; f] => match e_cond e with CEq (ESym _) (EInt _) => cond_eqb (e_cond f) (CNot (e_cond e)) | _ => false end
    | _ => false end) (g_edges g).
  Lemma binary_ok : binary = true -> exclusive g /\ total g.
  Proof.
    intros H. rewrite binary in H || unfold binary in H. rewrite forallb_forall in H.
    assert (CASES: forall s, (exists e, out g s = [e]) \/ out g s = [] \/
        exists e f x v, out g s = [e; f] /\ e_cond e = CEq (ESym x) (EInt v) /\ e_cond f = CNot (CEq (ESym x) (EInt v))).
    { intros s. destruct (out g s) as [|e0 l] eqn:O; [auto|].
      assert (J: In e0 (out g s)) by (rewrite O; left; reflexivity). apply filter_In in J as [J1 J2]. apply Nat.eqb_eq in J2. subst s.
      specialize (H e0 J1). rewrite O in H. destruct l as [|f [|]]; [eauto| |discriminate]. right; right.
      destruct (e_cond e0) as [|[] []| | | | | |] eqn:C; try discriminate. apply cond_eqb_eq in H. eauto 8. }
    assert (VAL: forall st x v, exists b, cev (env_of st) (CEq (ESym x) (EInt v)) = Some b).
    { intros st x v. simpl. eauto. }
    split.
    - intros s e f st He Hf N T. destruct (CASES s) as [(e1 & O)|[O|(e1 & f1 & x & v & O & C1 & C2)]]; rewrite O in He, Hf.
      + destruct He as [<-|[]], Hf as [<-|[]]. congruence.
      + destruct He.
      + destruct (VAL st x v) as (b & VB). destruct He as [<-|[<-|[]]], Hf as [<-|[<-|[]]]; try congruence.
        * rewrite C1 in T. rewrite C2. change (cev (env_of st) (CNot (CEq (ESym x) (EInt v)))) with (onegb (cev (env_of st) (CEq (ESym x) (EInt v)))). rewrite T. reflexivity.
        * rewrite C1. rewrite C2 in T. change (cev (env_of st) (CNot (CEq (ESym x) (EInt v)))) with (onegb (cev (env_of st) (CEq (ESym x) (EInt v)))) in T. rewrite VB in T |- *. destruct b; [discriminate|reflexivity].
    - intros s st L. destruct (CASES s) as [(e1 & O)|[O|(e1 & f1 & x & v & O & C1 & C2)]]; rewrite O in L |- *; simpl in L; try lia.
      destruct (VAL st x v) as (b & VB). destruct b.
      + exists e1. split; [left; reflexivity|]. rewrite C1. exact VB.
      + exists f1. split; [right; left; reflexivity|]. rewrite C2. change (cev (env_of st) (CNot (CEq (ESym x) (EInt v)))) with (onegb (cev (env_of st) (CEq (ESym x) (EInt v)))). rewrite VB. reflexivity.
  Qed.
  (** unique ids *)
  Fixpoint distinct (l : list nat) : bool := match l with [] => true | x :: r => negb (mem x r) && distinct r end.
  Lemma distinct_ok : distinct (map e_id (g_edges g)) = true -> unique_ids g.
  Proof.
    unfold unique_ids. generalize (map e_id (g_edges g)). induction l as [|x r IH]; simpl; intros H; [constructor|].
    apply andb_true_iff in H as [H1 H2]. apply negb_true_iff, mem_not in H1. constructor; auto.
  Qed.
  (** executions *)
  Variable I : nat -> list Z -> option Z.
  Fixpoint xrun (fuel : nat) (s : nat) (st : store) : option (string * store) :=
    match fuel with
    | O => None
    | S f => match exec_block I st (g_blk g s), out g s with
             | Some st1, [] => option_map (fun r => (r, st1)) (g_ret g s)
             | Some st1, es => match find (fun e => match cev (env_of st1) (e_cond e) with Some true => true | _ => false end) es with
                               | Some e => match exec_assigns st1 (e_asg e) with Some st2 => xrun f (e_dst e) st2 | None => None end
                               | None => None
                               end
             | None, _ => None
             end
    end.
  Lemma xrun_ok fuel s st r st' : xrun fuel s st = Some (r, st') -> exists n, crun I g n s st r st'.
  Proof.
    revert s st. induction fuel as [|f IH]; intros s st; [discriminate|]. cbn [xrun]. destruct (exec_block I st (g_blk g s)) as [st1|] eqn:B1; [|discriminate].
    destruct (out g s) as [|e0 l] eqn:O.
    - destruct (g_ret g s) eqn:Rt; [|discriminate]. intros E. injection E as <- <-. exists 0. apply C_ret; auto.
    - destruct (find _ (e0 :: l)) as [e|] eqn:F; [|discriminate]. destruct (exec_assigns st1 (e_asg e)) as [st2|] eqn:A; [|discriminate].
      intros H. destruct (IH _ _ H) as (n & C). exists (S n). apply find_some in F as [F1 F2]. eapply C_next; [|exact C].
      econstructor; [rewrite O; exact F1|exact B1| |exact A]. destruct (cev (env_of st1) (e_cond e)) as [[]|]; [reflexivity|discriminate|discriminate].
  Qed.
End DEC.

(* ---------------------------------------------------------------- *)
(** * Examples *)
Definition sets (x : string) (z : Z) : op := {| o_code := 0; o_ins := [OConst z]; o_out := x; o_sub := [] |}.
Definition at_state (l : list (nat * block)) (s : nat) : block := match find (fun p => fst p =? s) l with Some p => snd p | None => [] end.
Definition is_ (x : string) (z : Z) : cond := CEq (ESym x) (EInt z).
Definition go_ (i s d : nat) : edge := E i s d (CBool true) [].
Definition goa (i s d : nat) (a : assigns) : edge := E i s d (CBool true) a.
Definition if_ (i s d1 d2 : nat) (c : cond) : list edge := [E i s d1 c []; E (S i) s d2 (CNot c) []].
Definition plus1 (x : string) : assigns := [(x, EAdd [ESym x; EInt 1])].
Definition returns (s : nat) : nat -> option string := fun t => if t =? s then Some "x" else None.

(** i = 0; while (i != 2) { j = 0; while (j != 3) j = j + 1; i = i + 1 }; return x *)
Definition c51_g : cfg := G 0
  (goa 0 0 1 [("i", EInt 0)] :: if_ 1 1 6 2 (is_ "i" 2) ++ goa 3 2 3 [("j", EInt 0)] :: if_ 4 3 5 4 (is_ "j" 3) ++ [goa 6 4 3 (plus1 "j"); goa 7 5 1 (plus1 "i")])
  (at_state [(4, [sets "x" 7])]) (returns 6).
Theorem C51_hypotheses : exists p, structured c51_g = Some p /\ proper c51_g (is_back c51_g) (dominates c51_g) /\ unique_ids c51_g /\ exclusive c51_g /\ total c51_g /\
  exists n st', crun I0 c51_g n 0 st0 "x" st' /\ runs I0 p st0 (ORet "x") st' /\ st' "i" [] = 2%Z /\ st' "x" [] = 7%Z.
Proof.
  assert (PR: proper c51_g (is_back c51_g) (dominates c51_g)) by (apply properb_ok; vm_compute; reflexivity).
  assert (ID: unique_ids c51_g) by (apply distinct_ok; vm_compute; reflexivity).
  destruct (binary_ok c51_g) as [E T]; [vm_compute; reflexivity|].
  destruct (structured c51_g) as [p|] eqn:HS; [|vm_compute in HS; discriminate]. exists p. split; [reflexivity|].
  do 4 (split; [assumption|]).
  destruct (xrun c51_g I0 40 0 st0) as [[r st']|] eqn:X; [|vm_compute in X; discriminate].
  destruct (xrun_ok c51_g I0 40 0 st0 r st' X) as (n & C). exists n, st'.
  assert (Y: r = "x" /\ st' "i" [] = 2%Z /\ st' "x" [] = 7%Z) by (vm_compute in X; injection X as <- <-; vm_compute; auto).
  destruct Y as (-> & Y1 & Y2). split; [exact C|]. split; [|auto].
  apply (proj1 (C51_structuring_partial I0 _ _ _ _ _ _ PR ID E T HS)). exists n. exact C.
Qed.

(** The structured program returns with a different store. *)
Definition misstructured (g : cfg) : Prop := exists p st r st1 st2 x n, structured g = Some p /\ unique_ids g /\ exclusive g /\ total g /\
  crun I0 g n (g_start g) st r st1 /\ runs I0 p st (ORet r) st2 /\ st1 x [] <> st2 x [].
Lemma mis g p st r1 r st1 st2 x fuel : structured g = Some p -> distinct (map e_id (g_edges g)) = true -> binary g = true ->
  xrun g I0 fuel (g_start g) st = Some (r1, st1) -> xseq I0 fuel p st = Some (ORet r, st2) -> r1 = r -> Z.eqb (st1 x []) (st2 x []) = false -> misstructured g.
Proof.
  intros H1 H2 H3 H4 H5 -> H6. destruct (xrun_ok _ _ _ _ _ _ _ H4) as (n & C). destruct (binary_ok g H3) as [X T].
  exists p, st, r, st1, st2, x, n. split; [exact H1|]. split; [apply distinct_ok; exact H2|]. split; [exact X|]. split; [exact T|]. split; [exact C|].
  split; [eapply xseq_runs; exact H5|]. apply Z.eqb_neq. exact H6.
Qed.
Definition upd (st : store) (x : string) (z : Z) : store := fun y j => if String.eqb x y then z else st y j.

(** if (a == 0) goto R; while (c != 0) { if (b == 0) goto R }; x = 1; R: return x.
    The edge to the return state R, which the loop does not dominate, becomes a break. *)
Definition c51_ret : cfg := G 0 (if_ 0 0 5 1 (is_ "a" 0) ++ if_ 2 1 3 2 (is_ "c" 0) ++ if_ 4 2 5 1 (is_ "b" 0) ++ [go_ 6 3 5]) (at_state [(3, [sets "x" 1])]) (returns 5).
Theorem C51_shared_return_refuted : misstructured c51_ret.
Proof.
  eapply (mis c51_ret _ (upd (upd st0 "a" 1) "c" 1) _ _ _ _ "x" 40); try (vm_compute; reflexivity).
Qed.
(** while (n != 1) { n = n + 1; while (x != 1) { x = 1; if (b != 1) continue the outer loop }; y = 1 } *)
Definition c51_cont : cfg := G 0 (go_ 0 0 1 :: if_ 1 1 5 6 (is_ "n" 1) ++ goa 3 6 2 (plus1 "n") :: if_ 4 2 4 3 (is_ "x" 1) ++ if_ 6 3 2 1 (is_ "b" 1) ++ [go_ 8 4 1])
  (at_state [(3, [sets "x" 1]); (4, [sets "y" 1])]) (returns 5).
Theorem C51_outer_continue_refuted : misstructured c51_cont.
Proof. eapply (mis c51_cont _ st0 _ _ _ _ "y" 60); try (vm_compute; reflexivity). Qed.
(** while (n != 2) { n = n + 1; while (true) { if (x == 0) leave both loops; if (b != 1) continue the outer loop } } *)
Definition c51_brk : cfg := G 0 (go_ 0 0 1 :: if_ 1 1 5 6 (is_ "n" 2) ++ goa 3 6 2 (plus1 "n") :: if_ 4 2 5 3 (is_ "x" 0) ++ if_ 6 3 2 1 (is_ "b" 1)) (at_state []) (returns 5).
Theorem C51_outer_break_refuted : misstructured c51_brk.
Proof. eapply (mis c51_brk _ st0 _ _ _ _ "n" 60); try (vm_compute; reflexivity). Qed.
