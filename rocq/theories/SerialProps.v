(** C34: a program survives its JSON document. *)
From Coq Require Import Lia.
From Verif Require Import Sym SymFacts SymFuns Json Types Serial SerialProofs.
Local Open Scope string_scope.
Local Open Scope Z_scope.

(** [print]/[base] and [printc]/[basec] stand for SymEngine's printer and parser,
    [legal] for the builder's check of a container name.  [wf] (SerialProofs.v)
    asks: every expression in the program is read back by SymEngine from its own
    text and does not use a symbol called true or false; references carry
    default attributes; container, structure and element names are unique in
    their scopes; arguments and externals are containers and disjoint; only
    externals are tensors. *)
Section Props.
  Variables (print : expr -> string) (printc : cond -> string) (base : string -> option expr) (basec : string -> option cond) (legal : string -> bool).

  (** Types, whatever their nesting, come back equal, attributes included. *)
  Theorem C34_type_roundtrip : forall t, okT print base t -> Serial.type_of base (fuel (type_json print t)) (type_json print t) = Some t.
  Proof. intros t H. apply type_round; auto. unfold fuel. lia. Qed.

  (** A program comes back with the same name, kind, element counter, return
      type, structures, arguments, externals and linkage, metadata, the same
      type for every container name, and the same control-flow tree: every
      element identifier, debug info, tasklet, memlet (end points, connectors,
      subset, type), condition, loop bound, schedule and assignment. *)
  Theorem C34_program_roundtrip_partial : forall p, wf print printc base basec legal p ->
    exists q, deserialize base basec legal (serialize print printc p) = Some q /\
      p_name q = p_name p /\ p_counter q = p_counter p /\ p_type q = p_type p /\ p_ret q = p_ret p /\
      p_structs q = p_structs p /\ p_args q = p_args p /\ p_exts q = p_exts p /\ p_meta q = p_meta p /\
      (forall x, cont (p_containers q) x = cont (p_containers p) x) /\ p_root q = p_root p.
  Proof.
    intros p W. exists (reload p). split; [exact (reload_round print printc base basec legal p W)|].
    repeat split. exact (reload_cont print printc base basec legal p W).
  Qed.

  (** Two programs with the same document are the same program. *)
  Theorem C34_document_determines_program : forall p q, wf print printc base basec legal p -> wf print printc base basec legal q ->
    serialize print printc p = serialize print printc q ->
    p_name q = p_name p /\ p_args q = p_args p /\ p_exts q = p_exts p /\ (forall x, cont (p_containers q) x = cont (p_containers p) x) /\ p_root q = p_root p.
  Proof.
    intros p q Wp Wq E. pose proof (reload_round _ _ _ _ _ p Wp) as Rp. pose proof (reload_round _ _ _ _ _ q Wq) as Rq. rewrite E in Rp. rewrite Rq in Rp. assert (R: reload q = reload p) by congruence.
    pose proof (reload_cont _ _ _ _ _ p Wp) as Cp. pose proof (reload_cont _ _ _ _ _ q Wq) as Cq.
    repeat split; try (change (p_name (reload q) = p_name (reload p)) || change (p_args (reload q) = p_args (reload p)) || change (p_exts (reload q) = p_exts (reload p)) || change (p_root (reload q) = p_root (reload p)); congruence).
    intros x. rewrite <- Cp, <- Cq. congruence.
  Qed.

  (** The symbols that have assumptions after reloading: exactly the
      symbol-typed containers that are not externals. *)
  Theorem C34_reloaded_assumptions : forall p q x, wf print printc base basec legal p -> deserialize base basec legal (serialize print printc p) = Some q ->
    (In x (p_assumed q) <-> exists t, cont (p_containers p) x = Some t /\ is_symbol t = true /\ ~ In x (map fst (p_exts p))).
  Proof.
    intros p q x W R. rewrite (reload_round _ _ _ _ _ p W) in R. assert (Eq: q = reload p) by congruence. rewrite Eq. clear Eq. cbn [reload p_assumed]. unfold syms. rewrite filter_In. split.
    - intros [H1 H2]. assert (Hi: In x (map fst (p_containers p)) /\ ~ In x (map fst (p_exts p))).
      { apply in_app_or in H1 as [H1|H1]; [split; [exact (proj2 (wf_args _ _ _ _ _ p W) _ H1)|exact (wf_disjoint _ _ _ _ _ p W _ H1)]|].
        unfold rest in H1. apply filter_In in H1 as [H1 H3]. split; auto. intros G. apply mem_spec in G. rewrite G, orb_true_r in H3. discriminate. }
      destruct Hi as [Hi He]. destruct (cont_some _ _ Hi) as (t & Ht). exists t. unfold ty_at in H2. rewrite Ht in H2. auto.
    - intros (t & H1 & H2 & H3). unfold ty_at. rewrite H1. split; auto. apply in_or_app. destruct (mem x (p_args p)) eqn:E; [left; apply mem_spec; auto|right].
      unfold rest. apply filter_In. split; [apply cont_in in H1; apply in_map_iff; exists (x, t); auto|]. rewrite E. cbn [orb]. destruct (mem x (map fst (p_exts p))) eqn:D; auto. apply mem_spec in D. tauto.
  Qed.

  (** ** Where the full claim fails *)
  (** a reference type loses its alignment, which its equality compares *)
  Theorem C34_reference_attributes_lost : forall t n, okT print base t -> (jdepth (type_json print t) < n)%nat ->
    let r := TReference {| a_storage := a_storage attrs0; a_align := 8; a_init := "" |} t in
    exists r', Serial.type_of base n (type_json print r) = Some r' /\ ty_eqb r r' = false.
  Proof.
    intros t n O L r. destruct n as [|n]; [lia|]. exists (TReference attrs0 t). split.
    - unfold r. cbn [type_json Serial.type_of]. unfold sget. cbn [jget jlookup String.eqb Ascii.eqb Bool.eqb obind as_str]. rewrite type_round; auto. lia.
    - unfold r. cbn [ty_eqb a_align attrs0]. rewrite andb_comm. reflexivity.
  Qed.
  (** a container called true (a legal C name) turns into the number 1 *)
  Theorem C34_symbol_true_rewritten : base (print (ESym "true")) = Some (ESym "true") -> Serial.parse base (print (ESym "true")) = Some (EInt 1).
  Proof. intros H. unfold Serial.parse. rewrite H. reflexivity. Qed.
End Props.

(* ---------------------------------------------------------------- *)
(** * A concrete program *)
Definition tab : list (expr * string) :=
  [(EInt 0, "0"); (EInt 1, "1"); (EInt 8, "8"); (ESym "i", "i"); (ESym "N", "N"); (EAdd [EInt 1; ESym "i"], "1 + i")].
Definition ctab : list (cond * string) := [(CLt (ESym "i") (ESym "N"), "i < N"); (CLt (EInt 0) (ESym "N"), "0 < N")].
Definition print1 (e : expr) : string := match find (fun es => expr_eqb e (fst es)) tab with Some (_, s) => s | None => "?" end.
Definition printc1 (c : cond) : string := match find (fun es => cond_eqb c (fst es)) ctab with Some (_, s) => s | None => "?" end.
Definition base1 (s : string) : option expr := option_map fst (find (fun es => String.eqb s (snd es)) tab).
Definition basec1 (s : string) : option cond := option_map fst (find (fun es => String.eqb s (snd es)) ctab).
Definition at0 : dbg := {| d_has := true; d_file := "a.c"; d_func := "f"; d_l1 := 3; d_c1 := 1; d_l2 := 5; d_c2 := 2 |}.
Definition arr_ty : ty := TPointer attrs0 (Some (TArray attrs0 (TScalar attrs0 Double) (EInt 8))).
(** for (i = 0; i < N; i = i + 1) { g = A[i] } inside a map, under a condition *)
Definition blk1 : cnode := XBlock (4, at0) [((5, dbg0), DAccess "A"); ((6, dbg0), DTasklet 0 ["_in"] "_out"); ((7, at0), DAccess "g")]
  [{| g_elem := (8, dbg0); g_src := 0; g_dst := 1; g_sconn := "void"; g_dconn := "_in"; g_subset := [EInt 0; ESym "i"]; g_type := arr_ty |};
   {| g_elem := (9, at0); g_src := 1; g_dst := 2; g_sconn := "_out"; g_dconn := "void"; g_subset := []; g_type := TScalar attrs0 Double |}].
Definition loop1 : cnode := XFor (10, at0) "i" (EInt 0) (CLt (ESym "i") (ESym "N")) (EAdd [EInt 1; ESym "i"]) (CSeq (11, dbg0) (KCons blk1 (12, dbg0) [("k", EAdd [EInt 1; ESym "i"])] KNil)).
Definition prog1 : program := {|
  p_name := "kernel"; p_counter := 40; p_type := "CPU"; p_ret := TScalar attrs0 Void;
  p_structs := [("pair", ([TScalar attrs0 Int32; TScalar attrs0 Double], true))];
  p_containers := [("i", TScalar attrs0 Int64); ("A", arr_ty); ("k", TScalar attrs0 Int64); ("g", TPointer attrs0 None); ("N", TScalar attrs0 Int64); ("m", TScalar attrs0 Int64)];
  p_args := ["N"; "A"]; p_exts := [("g", 1); ("m", 0)]; p_meta := [("target", "x86")]; p_assumed := ["i"; "k"; "N"; "m"];
  p_root := CSeq (1, dbg0) (KCons (XIf (2, dbg0) (QCons (CLt (EInt 0) (ESym "N")) (CSeq (3, dbg0) (KCons loop1 (13, at0) [] (KCons (XReturn (14, dbg0) "k" (Some (TScalar attrs0 Int64))) (15, dbg0) [] KNil))) QNil)) (16, dbg0) [("i", EInt 0); ("k", EInt 1)]
              (KCons (XWhile (17, dbg0) (CSeq (18, dbg0) (KCons (XBreak (19, dbg0)) (20, dbg0) [] KNil))) (21, dbg0) [] KNil)) |}.
Ltac ok1 := cbn; unfold okA, okS, okE, okC, okL, okD, okF; cbn;
  repeat match goal with
    | |- _ /\ _ => split
    | |- Forall _ (_ :: _) => apply Forall_cons
    | |- Forall _ [] => apply Forall_nil
    | |- NoDup (_ :: _) => apply NoDup_cons
    | |- NoDup [] => apply NoDup_nil
    | |- okN _ _ _ => unfold okN, okL, okD
    | |- okA _ _ _ => unfold okA, okS; cbn
    | |- okT _ _ _ => cbn [okT]
    end; cbn; auto; try lia; try discriminate; try (intros ? ?; discriminate); try (intuition discriminate).
Example prog1_wf : wf print1 printc1 base1 basec1 (fun _ => true) prog1.
Proof.
  assert (T: okT print1 base1 arr_ty) by (ok1; try reflexivity).
  assert (B: okX print1 printc1 base1 basec1 blk1).
  { cbn [okX blk1]. split; [intros H; discriminate H|]. split; [|split].
    - ok1.
    - ok1.
    - repeat apply Forall_cons; try apply Forall_nil; unfold okG; cbn [g_elem g_src g_dst g_subset g_type]; (split; [|split; [|split; [|split]]]); try (cbn; lia); auto; ok1. }
  split; cbn [p_ret p_structs p_containers p_args p_exts p_root prog1].
  - ok1.
  - ok1.
  - intros s [<-|[]]. ok1.
  - ok1.
  - intros x t H. cbn [In] in H. repeat (destruct H as [H|H]; [injection H as <- <-; split; auto; ok1|]). destruct H.
  - intros x t H. cbn [In] in H. repeat (destruct H as [H|H]; [injection H as <- <-; discriminate|]). destruct H.
  - split; [ok1|]. intros x H. cbn in H |- *. tauto.
  - split; [ok1|]. intros x H. cbn in H |- *. tauto.
  - intros x H G. cbn in H, G. intuition congruence.
  - cbn [okQ okK okBs okX loop1 okC]. ok1. all: first [exact (Forall_inv (proj2 (proj2 (proj2 B))))|exact (Forall_inv (Forall_inv_tail (proj2 (proj2 (proj2 B)))))|repeat split].
Qed.
Example prog1_back : exists q, deserialize base1 basec1 (fun _ => true) (serialize print1 printc1 prog1) = Some q /\ p_root q = p_root prog1 /\ map fst (p_containers q) = ["g"; "m"; "N"; "A"; "i"; "k"].
Proof. eexists. split; [vm_compute; reflexivity|split; reflexivity]. Qed.
(** the external symbol m had an assumption entry (add_container(.., is_external)
    creates one) and has none after reloading *)
Theorem C34_assumptions_lost : exists q, deserialize base1 basec1 (fun _ => true) (serialize print1 printc1 prog1) = Some q /\ In "m" (p_assumed prog1) /\ ~ In "m" (p_assumed q).
Proof. eexists. split; [vm_compute; reflexivity|]. split; [cbn; auto 9|]. cbn. intuition discriminate. Qed.
