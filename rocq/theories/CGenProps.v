(** * C59: the C statements generated for a structured program execute like the program *)
From Coq Require Import String ZArith List Bool Lia Arith.
From Verif Require Import Sym SymFacts IR IRFacts TaskC CParse CPrint CGen.
Import ListNotations.
Local Open Scope string_scope.
Local Open Scope list_scope.
Local Open Scope Z_scope.

(** The code of blocks keeps the signed integer symbols [V] in the range of their types. *)
Definition typed_blocks (I : nat -> list Z -> option Z) (V : string -> bool) (g : string -> cty) (B : block -> bool) : Prop :=
  forall b st st', B b = true -> typed V g st -> exec_block I st b = Some st' -> typed V g st'.
(** The returned container, if the program ended by itself or by a return. *)
Definition ends (o : outcome) (r : option string) : Prop := (o = ONorm /\ r = None) \/ (exists x, o = ORet x /\ r = Some x).
(** The C function ends with result [r] and memory [st'] *)
Definition c_ends I g (s : seq) (st : store) (r : option string) (st' : store) : Prop := star I g (Run (genS s) KStop st) (Done r st').
(** ... or has undefined behaviour, or stores a value outside the range of the symbol it is stored to *)
Definition c_fails I g (s : seq) (st : store) : Prop := fails I g (Run (genS s) KStop st).

Lemma star_csteps I g a b : star I g a b -> exists n, csteps I g n a b.
Proof. induction 1 as [a|a b c ST _ (n & IH)]; [exists 0%nat; constructor|]. exists (S n). econstructor; eauto. Qed.
Lemma csteps_star I g n a b : csteps I g n a b -> star I g a b.
Proof. induction 1; econstructor; eauto. Qed.

(** Every ending execution of the program is one of the C code, unless that fails. *)
Theorem C59_program_to_code_partial : forall I V g B s st o st' r,
  typed_blocks I V g B -> okS V B s = true -> typed V g st ->
  runs I s st o st' -> ends o r -> c_ends I g s st r st' \/ c_fails I g s st.
Proof.
  intros I V g B s st o st' r KB OK T R E. destruct (proj1 (proj2 (run_sim I V g B KB)) s st o st' R OK T KStop) as [[_ A]|F]; [left|right; exact F].
  destruct E as [[-> ->]|(x & -> & ->)]; [|exact A]. eapply star_trans; [exact A|]. apply star_one, X_end.
Qed.
(** Every ending execution of the C code is one of the program. *)
Theorem C59_code_to_program_partial : forall I V g B s st st' r,
  typed_blocks I V g B -> okS V B s = true -> typed V g st ->
  c_ends I g s st r st' -> exists o, runs I s st o st' /\ ends o r.
Proof.
  intros I V g B s st st' r KB OK T C. destruct (star_csteps _ _ _ _ C) as (N & Z).
  destruct (proj1 (back_sim I V g B KB r st' N) s st KStop OK T Z) as (o & st1 & M & L & R & T1 & Z1).
  exists o. destruct o as [| | |x]; cbn [tgt stm] in Z1.
  - inversion Z1 as [|? ? ? ? S1 S2]; subst. inversion S1; subst. inversion S2 as [|? ? ? ? S3 S4]; subst; [|inversion S3]. split; [exact R|]. left. auto.
  - inversion Z1 as [|? ? ? ? S1 S2]; subst. inversion S1.
  - inversion Z1 as [|? ? ? ? S1 S2]; subst. inversion S1.
  - inversion Z1 as [|? ? ? ? S1 S2]; subst; [|inversion S1]. split; [exact R|]. right. eauto.
Qed.
(** C code never does two different things. *)
Lemma cval_fun g st ts v w : cval g st ts v -> cval g st ts w -> v = w.
Proof. intros (a & P & <-) (b & Q & <-). rewrite (parses_fun _ _ _ P Q). reflexivity. Qed.
Lemma cstep_det I g a b c : cstep I g a b -> cstep I g a c -> b = c.
Proof.
  intros S T. inversion S; subst; clear S; inversion T; subst; clear T; auto; try congruence;
    repeat match goal with A : cval g ?s ?t ?v, B : cval g ?s ?t ?w |- _ => pose proof (cval_fun _ _ _ _ _ A B); clear B end; try congruence; try contradiction;
    match goal with E : Some _ = Some _ |- _ => inversion E; subst; try contradiction; reflexivity end.
Qed.
Theorem C59_code_deterministic : forall I g s st r1 r2 st1 st2,
  c_ends I g s st r1 st1 -> (c_ends I g s st r2 st2 -> r1 = r2 /\ st1 = st2) /\ ~ c_fails I g s st.
Proof.
  intros I g s st r1 r2 st1 st2 A. assert (D : forall a b c, star I g a b -> star I g a c -> (forall x, ~ cstep I g b x) -> (forall x, ~ cstep I g c x) -> b = c).
  { intros a b c SB. induction SB as [a|a a' b S _ IH]; intros SC NB NC.
    - inversion SC; subst; auto. destruct (NB _ ltac:(eassumption)).
    - inversion SC; subst; [destruct (NC _ S)|]. apply IH; auto. match goal with X : cstep I g a ?y |- _ => tryif unify y a' then fail else (rewrite (cstep_det _ _ _ _ _ S X)) end; assumption. }
  split; [intros B|intros [B|B]]; specialize (D _ _ _ A B); (assert (E : _ = _) by (apply D; intros x H; inversion H)); inversion E; auto.
Qed.

(** ** Executing the machine *)
Section Exec.
Variable fuel : nat.
Definition cv (g : string -> cty) (st : store) (ts : list tok) : option (option Z) := match parse fuel 0 ts with Some (a, []) => Some (xeval g (env_of st) a) | _ => None end.
Lemma cv_ok g st ts v : cv g st ts = Some v -> cval g st ts v.
Proof. unfold cv. intros H. destruct (parse fuel 0 ts) as [[a [|]]|] eqn:P; try discriminate. inversion H. exists a. split; auto. eapply parse_parses; eauto. Qed.
Definition trangeb (t : cty) (v : Z) : bool :=
  match t with TB => (0 <=? v) && (v <=? 1) | TI true w => (- 2 ^ (w - 1) <=? v) && (v <? 2 ^ (w - 1)) | TI false w => (0 <=? v) && (v <? 2 ^ w) end.
Lemma trangeb_ok t v : trangeb t v = true <-> trange t v.
Proof. destruct t as [|[|] w]; unfold trangeb, trange; rewrite andb_true_iff, ?Z.leb_le, ?Z.ltb_lt; reflexivity. Qed.
Definition xset g (x : string) (e : list tok) (st : store) (f : store -> cstate) : option cstate :=
  match cv g st e with Some (Some v) => Some (if trangeb (g x) v then f (wr st x [] v) else Wrapped) | Some None => Some Undef | None => None end.
Definition xif g (c : list tok) (st : store) (a b : cstate) : option cstate :=
  match cv g st c with Some (Some v) => Some (if v =? 0 then b else a) | Some None => Some Undef | None => None end.
Definition xstep I g (a : cstate) : option cstate :=
  match a with
  | Run SSkip (KSeq s k) st => Some (Run s k st)
  | Run SSkip (KWhile s k) st => Some (Run (SWhile s) k st)
  | Run SSkip (KFor x c u s k) st => xset g x u st (Run (SLoop x c u s) k)
  | Run SSkip KStop st => Some (Done None st)
  | Run (SDo b) k st => Some (match exec_block I st b with Some st' => Run SSkip k st' | None => Undef end)
  | Run (SSet x e) k st => xset g x e st (Run SSkip k)
  | Run (SSeq a b) k st => Some (Run a (KSeq b k) st)
  | Run (SIf c a b) k st => xif g c st (Run a k st) (Run b k st)
  | Run (SWhile s) k st => Some (Run s (KWhile s k) st)
  | Run (SFor x e c u s) k st => xset g x e st (Run (SLoop x c u s) k)
  | Run (SLoop x c u s) k st => xif g c st (Run s (KFor x c u s k) st) (Run SSkip k st)
  | Run SBreak (KSeq _ k) st => Some (Run SBreak k st)
  | Run SBreak (KWhile _ k) st | Run SBreak (KFor _ _ _ _ k) st => Some (Run SSkip k st)
  | Run SContinue (KSeq _ k) st => Some (Run SContinue k st)
  | Run SContinue k st => match k with KStop => None | _ => Some (Run SSkip k st) end
  | Run (SReturn r) k st => Some (Done (Some r) st)
  | _ => None
  end.
Fixpoint xsteps I g n (a : cstate) : cstate := match n with O => a | S n => match xstep I g a with Some b => xsteps I g n b | None => a end end.
Lemma xset_ok g x e st f b : xset g x e st f = Some b ->
  (exists v, cval g st e (Some v) /\ trange (g x) v /\ b = f (wr st x [] v)) \/ (exists v, cval g st e (Some v) /\ ~ trange (g x) v /\ b = Wrapped) \/ (cval g st e None /\ b = Undef).
Proof.
  unfold xset. intros H. destruct (cv g st e) as [[v|]|] eqn:E; [|inversion H; apply cv_ok in E; auto|discriminate]. apply cv_ok in E. inversion H.
  destruct (trangeb (g x) v) eqn:B; [left; apply trangeb_ok in B|right; left]; exists v; split; auto; split; auto. intros R. apply trangeb_ok in R. congruence.
Qed.
Lemma xif_ok g c st a b r : xif g c st a b = Some r ->
  (exists v, cval g st c (Some v) /\ v <> 0 /\ r = a) \/ (cval g st c (Some 0) /\ r = b) \/ (cval g st c None /\ r = Undef).
Proof.
  unfold xif. intros H. destruct (cv g st c) as [[v|]|] eqn:E; [|inversion H; apply cv_ok in E; auto|discriminate]. apply cv_ok in E. inversion H.
  destruct (Z.eqb_spec v 0) as [->|N]; [right; left; auto|left]; exists v; auto.
Qed.
Ltac done_ H := inversion H; subst; constructor; assumption.
Ltac set_ H := destruct (xset_ok _ _ _ _ _ _ H) as [(? & ? & ? & ->)|[(? & ? & ? & ->)|(? & ->)]]; econstructor; eassumption.
Ltac if__ H := destruct (xif_ok _ _ _ _ _ _ H) as [(? & ? & ? & ->)|[(? & ->)|(? & ->)]]; econstructor; eassumption.
Lemma xstep_ok I g a b : xstep I g a = Some b -> cstep I g a b.
Proof.
  destruct a as [s k st|r st| |]; try discriminate. destruct s; intros H.
  - destruct k; cbn [xstep] in H; [done_ H|done_ H|done_ H|set_ H].
  - cbn [xstep] in H. destruct (exec_block I st b0) eqn:E; done_ H.
  - cbn [xstep] in H. set_ H.
  - done_ H.
  - cbn [xstep] in H. if__ H.
  - done_ H.
  - cbn [xstep] in H. set_ H.
  - cbn [xstep] in H. if__ H.
  - destruct k; [discriminate|done_ H|done_ H|done_ H].
  - destruct k; [discriminate|done_ H|done_ H|done_ H].
  - done_ H.
Qed.
Lemma xsteps_ok I g n : forall a, star I g a (xsteps I g n a).
Proof. induction n as [|n IH]; intros a; cbn [xsteps]; [constructor|]. destruct (xstep I g a) as [b|] eqn:E; [|constructor]. eapply star_step; [apply xstep_ok; eauto|auto]. Qed.

End Exec.
(** ** A program with a loop, a while loop, branches, transition assignments and a return *)
Definition c59 : seq :=
  SCons (NLoop IR.KFor "i" (EInt 0) (CLt (ESym "i") (ESym "n")) (EAdd [EInt 1; ESym "i"])
    (SCons (NIf (BCons (CAnd [CLt (EInt 1) (ESym "i"); CNe (ESym "i") (EInt 3)]) (SCons (NBlock []) [("s", EAdd [ESym "s"; EMul [EInt 2; ESym "i"]])] SNil)
                (BCons (CBool true) (SCons NContinue [] SNil) BNil))) [("t", EAdd [ESym "t"; EInt 1])] SNil)) [("j", ESym "s")]
  (SCons (NWhile (SCons (NIf (BCons (CLe (ESym "j") (EInt 5)) (SCons NBreak [] SNil) BNil)) [("j", EIdiv (ESym "j") (EInt 2))] SNil)) []
  (SCons (NReturn "s") [] SNil)).
Definition g59 (x : string) : cty := if String.eqb x "n" then TI true 64 else TI true 32.
Definition st59 : store := fun x _ => if String.eqb x "n" then 6 else 0.
Definition no_block (b : block) : bool := match b with [] => true | _ => false end.
Definition fin59 : cstate := xsteps 200 (fun _ _ => None) g59 200 (Run (genS c59) KStop st59).
Lemma fin59_ok : match fin59 with Done (Some q) s => String.eqb q "s" && (s "s" [] =? 22) && (s "t" [] =? 3) && (s "j" [] =? 5) | _ => false end = true.
Proof. vm_compute. reflexivity. Qed.
Lemma fin59_star : star (fun _ _ => None) g59 (Run (genS c59) KStop st59) fin59.
Proof. apply xsteps_ok. Qed.
Theorem C59_hypotheses : exists st',
  typed_blocks (fun _ _ => None) (fun _ => true) g59 no_block /\ okS (fun _ => true) no_block c59 = true /\ typed (fun _ => true) g59 st59 /\
  c_ends (fun _ _ => None) g59 c59 st59 (Some "s") st' /\ st' "s" [] = 22 /\ st' "t" [] = 3 /\ st' "j" [] = 5 /\
  exists o, runs (fun _ _ => None) c59 st59 o st' /\ ends o (Some "s").
Proof.
  assert (TB : typed_blocks (fun _ _ => None) (fun _ => true) g59 no_block).
  { intros [|? ?] st st' H T E; [|discriminate]. cbn in E. inversion E; subst. exact T. }
  assert (T : typed (fun _ => true) g59 st59).
  { intros x _. unfold g59, env_of, st59. destruct (String.eqb x "n"); [exists 64|exists 32]; (split; [lia|]; split; [reflexivity|lia]). }
  assert (OK : okS (fun _ => true) no_block c59 = true) by reflexivity.
  pose proof fin59_ok as K. pose proof fin59_star as C. destruct fin59 as [| [q|] s| |]; try discriminate.
  apply andb_true_iff in K. destruct K as [K K3]. apply andb_true_iff in K. destruct K as [K K2]. apply andb_true_iff in K. destruct K as [K K1].
  apply String.eqb_eq in K. apply Z.eqb_eq in K1, K2, K3. subst q. exists s. change (c_ends (fun _ _ => None) g59 c59 st59 (Some "s") s) in C.
  repeat (split; [assumption|]). eapply C59_code_to_program_partial; eauto.
Qed.

(** ** What fails outside the hypotheses *)
(** A counter narrower than the bound: the program ends, the code stores 2^31 into an int (wraps). *)
Definition wide : seq := SCons (NBlock []) [("i", ESym "n")] SNil.
Theorem C59_narrow_counter_refuted : exists g st st', typed (fun _ => true) g st /\ okS (fun _ => true) no_block wide = true /\
  runs (fun _ _ => None) wide st ONorm st' /\ c_fails (fun _ _ => None) g wide st /\ (forall r st2, ~ c_ends (fun _ _ => None) g wide st r st2).
Proof.
  set (g := fun x => if String.eqb x "n" then TI true 64 else TI true 32). set (st := (fun x _ => if String.eqb x "n" then 2 ^ 31 else 0) : store).
  exists g, st, (wr st "i" [] (2 ^ 31)).
  assert (F : c_fails (fun _ _ => None) g wide st) by (right; exact (xsteps_ok 200 (fun _ _ => None) g 20 (Run (genS wide) KStop st))).
  split; [intros x _; unfold env_of, g, st; destruct (String.eqb x "n"); [exists 64|exists 32]; (split; [lia|]; split; [reflexivity|lia])|]. split; [reflexivity|].
  split; [eapply R_cons; [apply R_block; reflexivity|reflexivity|constructor]|]. split; [exact F|]. intros r st2 E. destruct (C59_code_deterministic _ _ _ _ _ r _ st2 E) as [_ N]. auto.
Qed.
(** Symbolic conditions are total in the program, short-circuiting in C: [x != 0 && 10 / x > 1] *)
Definition guarded : seq := SCons (NIf (BCons (CAnd [CNe (ESym "x") (EInt 0); CLt (EInt 1) (EIdiv (EInt 10) (ESym "x"))]) (SCons (NBlock []) [("y", EInt 1)] SNil) BNil)) [] SNil.
Theorem C59_short_circuit_refuted : exists g st st', typed (fun _ => true) g st /\ c_ends (fun _ _ => None) g guarded st None st' /\
  (forall o st2, ~ runs (fun _ _ => None) guarded st o st2).
Proof.
  exists (fun _ => TI true 32), (fun _ _ => 0), (fun _ _ => 0).
  split; [intros x _; exists 32; split; [lia|]; split; [reflexivity|cbn; unfold env_of; lia]|].
  split; [exact (xsteps_ok 200 (fun _ _ => None) (fun _ => TI true 32) 20 (Run (genS guarded) KStop (fun _ _ => 0)))|].
  intros o st2 R. inversion R; subst; match goal with H : run _ _ _ _ _ |- _ => inversion H; subst end;
    match goal with H : runb _ _ _ _ _ |- _ => inversion H; subst end; match goal with H : cev _ _ = _ |- _ => vm_compute in H; discriminate end.
Qed.
