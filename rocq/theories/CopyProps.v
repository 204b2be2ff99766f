(** * C84: deep copies *)
From Coq Require Import String List ZArith Bool Lia.
From Verif Require Import Sym SymFacts SymFuns Json Types Serial Dbg DbgProofs Copy.
Import ListNotations.
Open Scope string_scope.
Open Scope list_scope.
Open Scope Z_scope.

Lemma code_nodes l : forall c, map (fun x : elem * dnode => (noid (fst x), snd x)) (copy_nodes c l) = map (fun x => (noid (fst x), snd x)) l.
Proof. induction l as [|((i, d), n) l IH]; intros c; cbn; [reflexivity|]. rewrite IH. reflexivity. Qed.
Lemma code_edges l : forall c, map edge0 (copy_edges c l) = map edge0 l.
Proof. induction l as [|g l IH]; intros c; cbn; [reflexivity|]. rewrite IH. reflexivity. Qed.
Definition kids (q : cseq) : ckids := match q with CSeq _ k => k end.
Lemma code_mut :
  (forall n c, code_n (fst (copy_n c n)) = code_n n) /\ (forall q c, code_k (fst (copy_k c (kids q))) = code_k (kids q)) /\
  (forall k c, code_k (fst (copy_k c k)) = code_k k) /\ (forall b c, code_b (fst (copy_b c b)) = code_b b).
Proof.
  apply c_mut; intros; try (destruct q as [e0 k0]); cbn [copy_n copy_k copy_b code_n code_k code_b kids] in *.
  - cbn [fst code_n]. rewrite code_nodes, code_edges. reflexivity.
  - specialize (H (c + 2)). destruct (copy_k (c + 2) k0) as (k', c'). cbn [fst code_n] in *. rewrite H. reflexivity.
  - specialize (H (c + 2)). destruct (copy_b (c + 2) bs) as (k', c'). cbn [fst code_n] in *. rewrite H. reflexivity.
  - specialize (H (c + 3)). destruct (copy_k (c + 3) k0) as (k', c'). cbn [fst code_n] in *. rewrite H. reflexivity.
  - specialize (H (c0 + 3)). destruct (copy_k (c0 + 3) k0) as (k', c'). cbn [fst code_n] in *. rewrite H. reflexivity.
  - specialize (H (c0 + 3)). destruct (copy_k (c0 + 3) k0) as (k', c'). cbn [fst code_n] in *. rewrite H. reflexivity.
  - reflexivity.
  - reflexivity.
  - reflexivity.
  - apply H.
  - reflexivity.
  - specialize (H c). destruct (copy_n c n) as (n', c1). specialize (H0 c1). destruct (copy_k c1 k) as (k', c2). cbn [fst code_k] in *. rewrite H, H0. reflexivity.
  - reflexivity.
  - specialize (H (c0 + 1)). destruct (copy_k (c0 + 1) k0) as (k', c1). specialize (H0 c1). destruct (copy_b c1 b) as (b', c2). cbn [fst code_b] in *. rewrite H, H0. reflexivity.
Qed.
Lemma code_kapp a b : code_k (kapp a b) = kapp (code_k a) (code_k b).
Proof. induction a as [|n te x a IH]; [reflexivity|]. cbn. rewrite IH. reflexivity. Qed.

Lemma klist_kapp a b : klist (kapp a b) = klist a ++ klist b.
Proof. induction a as [|n te x a IH]; [reflexivity|]. cbn. rewrite IH. reflexivity. Qed.
(** Inserting a sequence adds its children, with the same code and assignments, behind what
    was there; copying a node adds that node, with no assignments. *)
Theorem C84_insert e k src c : klist (code_k (kids (fst (insert_into c (CSeq e k) src)))) = klist (code_k k) ++ klist (code_k (kids src)).
Proof.
  destruct src as [e0 s]. pose proof (proj1 (proj2 (proj2 code_mut)) s c) as H. cbn. destruct (copy_k c s) as (s', c'). cbn in *. rewrite code_kapp, klist_kapp, H. reflexivity.
Qed.
Theorem C84_copy e k n c : (forall i b, n <> XIf i b) -> klist (code_k (kids (fst (copy_into c (CSeq e k) n)))) = klist (code_k k) ++ [(code_n n, (0, dbg0), [])].
Proof.
  intros N. pose proof (proj1 code_mut n c) as H. unfold copy_into. destruct (copy_n c n) as (n', c') eqn:E. cbn [fst] in H.
  assert (N' : forall i b, n' <> XIf i b).
  { destruct n as [? ? ?|q|i b|? q|? ? ? ? ? q|? ? ? ? ? ? q|?|?|? ? ?]; try (destruct q as [? kk]; cbn in E; destruct (copy_k _ kk); inversion E; discriminate); try (cbn in E; inversion E; discriminate).
    exfalso. exact (N i b eq_refl). }
  destruct n'; try (cbn [fst kids]; rewrite code_kapp, klist_kapp; cbn [code_k klist]; rewrite <- H; reflexivity). exfalso. exact (N' _ _ eq_refl).
Qed.
(** A copied conditional has the same branches. *)
Theorem C84_copy_if e k i b c : klist (code_k (kids (fst (copy_into c (CSeq e k) (XIf i b))))) = klist (code_k k) ++ [(XIf (0, dbg0) (code_b b), (0, dbg0), [])].
Proof.
  pose proof (proj2 (proj2 (proj2 code_mut)) b (c + 2)) as H. unfold copy_into. cbn [copy_n]. destruct (copy_b (c + 2) b) as (b', c'). cbn [fst kids] in *. rewrite code_kapp, klist_kapp. cbn [code_k code_n klist]. rewrite H. reflexivity.
Qed.

(** [l] are different identifiers from [c] up to, but not including, [d] *)
Definition fresh (c d : Z) (l : list Z) : Prop := NoDup l /\ forall x, In x l -> c <= x < d.
Lemma fresh_app c d e a b : fresh c d a -> fresh d e b -> c <= d -> d <= e -> fresh c e (a ++ b).
Proof.
  intros (A1 & A2) (B1 & B2) L M. split.
  - induction a as [|x a IH]; [exact B1|]. inversion A1; subst. cbn. constructor.
    + intros I. apply in_app_iff in I. destruct I as [I|I]; [contradiction|]. specialize (A2 x (or_introl eq_refl)). specialize (B2 x I). lia.
    + apply IH; [assumption|]. intros y J. apply A2. right. exact J.
  - intros x I. apply in_app_iff in I. destruct I as [I|I]; [specialize (A2 x I)|specialize (B2 x I)]; lia.
Qed.
Lemma fresh_cons c d x l : fresh c d l -> c <= d -> x < c -> fresh x d (x :: l).
Proof.
  intros (A & B) M L. split; [constructor; [intros I; specialize (B x I); lia|exact A]|]. intros y [<-|I]; [lia|specialize (B y I); lia].
Qed.
Lemma fresh_wide c d c' d' l : fresh c d l -> c' <= c -> d <= d' -> fresh c' d' l.
Proof. intros (A & B) L M. split; [exact A|]. intros x I. specialize (B x I). lia. Qed.
Lemma fresh_nil c : fresh c c []. Proof. split; [constructor|intros x []]. Qed.
Lemma ids_nodes l : forall c, fresh c (c + Z.of_nat (List.length l)) (map (fun x : elem * dnode => fst (fst x)) (copy_nodes c l)).
Proof.
  induction l as [|((i, d), n) l IH]; intros c; cbn [copy_nodes map List.length fst].
  - replace (c + Z.of_nat 0) with c by lia. apply fresh_nil.
  - apply (fresh_cons (c + 1)); [|lia|lia]. replace (c + Z.of_nat (S (List.length l))) with (c + 1 + Z.of_nat (List.length l)) by lia. apply IH.
Qed.
Lemma ids_edges l : forall c, fresh c (c + Z.of_nat (List.length l)) (map (fun g => fst (g_elem g)) (copy_edges c l)).
Proof.
  induction l as [|g l IH]; intros c; cbn [copy_edges map List.length fst g_elem].
  - replace (c + Z.of_nat 0) with c by lia. apply fresh_nil.
  - apply (fresh_cons (c + 1)); [|lia|lia]. replace (c + Z.of_nat (S (List.length l))) with (c + 1 + Z.of_nat (List.length l)) by lia. apply IH.
Qed.
Lemma fresh_mid c d t a : fresh c d a -> c <= t < d -> ~ In t a -> fresh c d (a ++ [t]).
Proof.
  intros (A & B) L N. split.
  - induction a as [|x a IH]; [constructor; [intros []|constructor]|]. inversion A; subst. cbn. constructor.
    + intros I. apply in_app_iff in I. destruct I as [I|[I|[]]]; [contradiction|]. apply N. left. symmetry. exact I.
    + apply IH; [assumption|intros y J; apply B; right; exact J|]. intros I. apply N. right. exact I.
  - intros x I. apply in_app_iff in I. destruct I as [I|[<-|[]]]; [apply B; exact I|exact L].
Qed.
(** identifiers of a node: [c] and then some after the transition's *)
Definition okn (c t d : Z) (l : list Z) : Prop := fresh c d l /\ c < t < d /\ ~ In t l.
Lemma okn_head c d l : fresh (c + 2) d l -> c + 2 <= d -> okn c (c + 1) d (c :: l).
Proof.
  intros (A & B) L. split; [|split; [lia|]].
  - apply (fresh_cons (c + 2)); [split; assumption|lia|lia].
  - intros [E|I]; [lia|specialize (B _ I); lia].
Qed.
Lemma okn_loop c d l : fresh (c + 3) d l -> c + 3 <= d -> okn c (c + 2) d (c :: c + 1 :: l).
Proof.
  intros F L. pose proof F as (A & B). split; [|split; [lia|]].
  - apply (fresh_cons (c + 1)); [|lia|lia]. apply (fresh_cons (c + 3)); [exact F|lia|lia].
  - intros [E|[E|I]]; [lia|lia|specialize (B _ I); lia].
Qed.
Lemma ids_mut :
  (forall n c, okn c (tid c n) (snd (copy_n c n)) (ids_n (fst (copy_n c n)))) /\
  (forall q c, fresh c (snd (copy_k c (kids q))) (ids_k (fst (copy_k c (kids q)))) /\ c <= snd (copy_k c (kids q))) /\
  (forall k c, fresh c (snd (copy_k c k)) (ids_k (fst (copy_k c k))) /\ c <= snd (copy_k c k)) /\
  (forall b c, fresh c (snd (copy_b c b)) (ids_b (fst (copy_b c b))) /\ c <= snd (copy_b c b)).
Proof.
  apply c_mut; intros; try (destruct q as [e0 k0]); cbn [copy_n copy_k copy_b kids tid] in *.
  - cbn [fst snd ids_n]. apply okn_head; [|lia]. eapply fresh_app; [apply ids_nodes|apply ids_edges|lia|lia].
  - specialize (H (c + 2)). destruct (copy_k (c + 2) k0) as (k', c'). cbn [fst snd ids_n ids_s] in *. apply okn_head; apply H.
  - specialize (H (c + 2)). destruct (copy_b (c + 2) bs) as (k', c'). cbn [fst snd ids_n ids_s] in *. apply okn_head; apply H.
  - specialize (H (c + 3)). destruct (copy_k (c + 3) k0) as (k', c'). cbn [fst snd ids_n ids_s] in *. apply okn_loop; apply H.
  - specialize (H (c0 + 3)). destruct (copy_k (c0 + 3) k0) as (k', c'). cbn [fst snd ids_n ids_s] in *. apply okn_loop; apply H.
  - specialize (H (c0 + 3)). destruct (copy_k (c0 + 3) k0) as (k', c'). cbn [fst snd ids_n ids_s] in *. apply okn_loop; apply H.
  - cbn. apply okn_head; [apply fresh_nil|lia].
  - cbn. apply okn_head; [apply fresh_nil|lia].
  - cbn. apply okn_head; [apply fresh_nil|lia].
  - apply H.
  - cbn. split; [apply fresh_nil|lia].
  - specialize (H c). destruct (copy_n c n) as (n', c1). specialize (H0 c1). destruct (copy_k c1 k) as (k', c2). cbn [fst snd ids_k] in *. destruct H as (A & B & D). destruct H0 as (E & F).
    split; [|lia]. change (ids_n n' ++ tid c n :: ids_k k') with (ids_n n' ++ [tid c n] ++ ids_k k'). rewrite app_assoc. apply (fresh_app c c1); [|exact E|lia|exact F].
    apply fresh_mid; [exact A|lia|exact D].
  - cbn. split; [apply fresh_nil|lia].
  - specialize (H (c0 + 1)). destruct (copy_k (c0 + 1) k0) as (k', c1). specialize (H0 c1). destruct (copy_b c1 b) as (b', c2). cbn [fst snd ids_b ids_s] in *. destruct H as (A & B). destruct H0 as (E & F).
    split; [|lia]. apply (fresh_app c0 c1); [|exact E|lia|exact F]. apply (fresh_cons (c0 + 1)); [exact A|exact B|lia].
Qed.
Lemma ids_kapp a b : ids_k (kapp a b) = ids_k a ++ ids_k b.
Proof. induction a as [|n te x a IH]; [reflexivity|]. cbn. rewrite IH, <- app_assoc. reflexivity. Qed.
(** Identifiers stay unique: if those of the program are different and below the builder's
    next one, so are they afterwards. *)
Theorem C84_ids_insert root src c : NoDup (ids_s root) -> (forall x, In x (ids_s root) -> x < c) ->
  NoDup (ids_s (fst (insert_into c root src))) /\ forall x, In x (ids_s (fst (insert_into c root src))) -> x < snd (insert_into c root src).
Proof.
  intros A B. destruct root as [e k], src as [e0 s]. destruct (proj1 (proj2 (proj2 ids_mut)) s c) as (F & L). cbn [insert_into]. destruct (copy_k c s) as (s', c'). cbn [fst snd ids_s] in *. rewrite ids_kapp.
  change (fst e :: ids_k k ++ ids_k s') with ((fst e :: ids_k k) ++ ids_k s').
  set (l := fst e :: ids_k k) in *. clearbody l. destruct F as (F1 & F2). split.
  - induction l as [|x l IH]; [exact F1|]. inversion A; subst. cbn. constructor.
    + intros I. apply in_app_iff in I. destruct I as [I|I]; [contradiction|]. specialize (B x (or_introl eq_refl)). specialize (F2 x I). lia.
    + apply IH; [assumption|]. intros y J. apply B. right. exact J.
  - intros x I. apply in_app_iff in I. destruct I as [I|I]; [specialize (B x I)|specialize (F2 x I)]; lia.
Qed.
Theorem C84_ids_copy root n c : NoDup (ids_s root) -> (forall x, In x (ids_s root) -> x < c) ->
  NoDup (ids_s (fst (copy_into c root n))) /\ forall x, In x (ids_s (fst (copy_into c root n))) -> x < snd (copy_into c root n).
Proof.
  intros A B. destruct root as [e k]. destruct (proj1 ids_mut n c) as (F & L & N). unfold copy_into. destruct (copy_n c n) as (n', c') eqn:En. cbn [fst snd] in *.
  assert (G : fresh c c' (ids_n n' ++ [tid c n])) by (apply fresh_mid; [exact F|lia|exact N]).
  assert (X : forall m d, ids_n m = ids_n n' -> NoDup (ids_s (CSeq e (kapp k (KCons m (tid c n, d) [] KNil)))) /\ forall x, In x (ids_s (CSeq e (kapp k (KCons m (tid c n, d) [] KNil)))) -> x < c').
  { intros m d Em. cbn [ids_s] in *. rewrite ids_kapp. cbn [ids_k]. rewrite Em. cbn [fst]. change (fst e :: ids_k k ++ ids_n n' ++ [tid c n]) with ((fst e :: ids_k k) ++ ids_n n' ++ [tid c n]).
    set (l := fst e :: ids_k k) in *. clearbody l. destruct G as (F1 & F2). split.
    - induction l as [|x l IH]; [exact F1|]. inversion A; subst. cbn. constructor.
      + intros I. apply in_app_iff in I. destruct I as [I|I]; [contradiction|]. specialize (B x (or_introl eq_refl)). specialize (F2 x I). lia.
      + apply IH; [assumption|]. intros y J. apply B. right. exact J.
    - intros x I. apply in_app_iff in I. destruct I as [I|I]; [specialize (B x I)|specialize (F2 x I)]; lia. }
  destruct n'; cbn [fst snd]; apply X; reflexivity.
Qed.
(** The locations of transitions, of loop bodies and of a copied conditional are lost. *)
Theorem C84_locations_refuted : exists (k : ckids) (n : cnode), (exists n' te te' a k', k = KCons n' te a k' /\ fst (copy_k 0 k) = KCons n' te' a k' /\ d_has (snd te) = true /\ d_has (snd te') = false) /\
  d_has (top n) = true /\ forall c, exists m te, fst (copy_into c (CSeq (0, dbg0) KNil) n) = CSeq (0, dbg0) (KCons m te [] KNil) /\ d_has (top m) = false.
Proof.
  exists (KCons (XBreak (0, dbg0)) (1, {| d_has := true; d_file := "main.c"; d_func := ""; d_l1 := 1; d_c1 := 1; d_l2 := 1; d_c2 := 1 |}) [] KNil).
  exists (XIf (0, {| d_has := true; d_file := "main.c"; d_func := ""; d_l1 := 1; d_c1 := 1; d_l2 := 1; d_c2 := 1 |}) QNil).
  split; [|split; [reflexivity|]].
  - eexists _, _, _, _, _. split; [reflexivity|]. split; [reflexivity|]. split; reflexivity.
  - intros c. eexists _, _. split; reflexivity.
Qed.
(** A loop with a block (two nodes, one edge), inserted into a program that uses the
    identifiers 0 to 2. *)
Example C84_hypotheses :
  let root := CSeq (0, dbg0) (KCons (XBreak (1, dbg0)) (2, dbg0) [] KNil) in
  let g := {| g_elem := (8, dbg0); g_src := 0; g_dst := 1; g_sconn := "void"; g_dconn := "_in"; g_subset := []; g_type := TScalar {| a_storage := {| s_value := ""; s_size := None; s_arg1 := None; s_alloc := false; s_dealloc := false |}; a_align := 0; a_init := "" |} Double |} in
  let blk := XBlock (5, dbg0) [((6, dbg0), DAccess "A"); ((7, dbg0), DTasklet 0 ["_in"] "_out")] [g] in
  let src := CSeq (3, dbg0) (KCons (XWhile (4, dbg0) (CSeq (9, dbg0) (KCons blk (10, dbg0) [("i", EInt 1)] KNil))) (11, dbg0) [] KNil) in
  NoDup (ids_s root) /\ (forall x, In x (ids_s root) -> x < 3) /\ ids_s (fst (insert_into 3 root src)) = [0; 1; 2; 3; 4; 6; 8; 9; 10; 7; 5] /\ snd (insert_into 3 root src) = 11.
Proof.
  cbv zeta. split; [|split; [|split; reflexivity]]; cbn.
  - repeat constructor; cbn; lia.
  - intros x [<-|[<-|[<-|[]]]]; lia.
Qed.
