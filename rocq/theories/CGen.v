(** * The C statements generated for a structured program
    (sdfg/src/codegen/dispatchers/{sequence,for,while,if_else,map}_dispatcher.cpp) *)
From Coq Require Import String ZArith List Bool Lia Arith.
From Verif Require Import Sym SymFacts IR IRFacts TaskC CParse CPrint.
Import ListNotations.
Local Open Scope string_scope.
Local Open Scope list_scope.
Local Open Scope Z_scope.

(** ** C statements.  Bodies are always written in braces, so statements are trees; expressions are texts.
    [SDo b]: the code of a dataflow block (tasklets: C57, order: C47).  [SLoop]: a [for] statement past its
    initialisation. *)
Inductive cstmt :=
| SSkip | SDo (b : block) | SSet (x : string) (e : list tok) | SSeq (a b : cstmt) | SIf (c : list tok) (a b : cstmt)
| SWhile (a : cstmt) | SFor (x : string) (e c u : list tok) (a : cstmt) | SLoop (x : string) (c u : list tok) (a : cstmt)
| SBreak | SContinue | SReturn (r : string).
(** ** Code generation *)
(** sequence_dispatcher.cpp:35-45: one assignment after the other *)
Fixpoint genA (a : assigns) : cstmt := match a with [] => SSkip | (x, e) :: a => SSeq (SSet x (pr e)) (genA a) end.
Fixpoint genN (n : node) : cstmt :=
  match n with
  | NBlock b => SDo b
  | NSeq s => genS s
  | NIf bs => genB bs                                              (* if_else_dispatcher.cpp:21-47 *)
  | NWhile s => SWhile (genS s)                                    (* while_dispatcher.cpp:19-32: while (1) *)
  | NLoop _ i init c u s => SFor i (pr init) (prc c) (pr u) (genS s) (* for_dispatcher.cpp:21-47; map_dispatcher.cpp, sequential *)
  | NBreak => SBreak | NContinue => SContinue                      (* while_dispatcher.cpp:56, 75 *)
  | NReturn r => SReturn r                                         (* while_dispatcher.cpp:91-131, without the deallocations *)
  end
with genS (s : seq) : cstmt :=                                      (* sequence_dispatcher.cpp:21-47 *)
  match s with SNil => SSkip | SCons n a r => SSeq (genN n) (SSeq (genA a) (genS r)) end
with genB (bs : brs) : cstmt :=
  match bs with BNil => SSkip | BCons c s r => SIf (prc c) (genS s) (genB r) end.

(** ** Execution of C statements: a machine with a control stack.  [Undef]: undefined behaviour.
    [Wrapped]: a value outside the range of a symbol's type is stored (implementation-defined
    conversion); the machine does not follow the execution further. *)
Inductive kont := KStop | KSeq (s : cstmt) (k : kont) | KWhile (s : cstmt) (k : kont) | KFor (x : string) (c u : list tok) (s : cstmt) (k : kont).
Inductive cstate := Run (s : cstmt) (k : kont) (st : store) | Done (r : option string) (st : store) | Undef | Wrapped.
Section Machine.
Variable I : nat -> list Z -> option Z.
Variable V : string -> bool.
Variable g : string -> cty.
(** the signed integer symbols hold values of their types *)
Definition typed (st : store) : Prop := signed_env V g (env_of st).
Definition cval (st : store) (ts : list tok) (v : option Z) : Prop := exists a, parses 0 ts (a, []) /\ xeval g (env_of st) a = v.
Inductive cstep : cstate -> cstate -> Prop :=
| X_skip_seq s k st : cstep (Run SSkip (KSeq s k) st) (Run s k st)
| X_skip_while s k st : cstep (Run SSkip (KWhile s k) st) (Run (SWhile s) k st)
| X_skip_for x c u s k st v : cval st u (Some v) -> trange (g x) v -> cstep (Run SSkip (KFor x c u s k) st) (Run (SLoop x c u s) k (wr st x [] v))
| X_skip_for_w x c u s k st v : cval st u (Some v) -> ~ trange (g x) v -> cstep (Run SSkip (KFor x c u s k) st) Wrapped
| X_skip_for_u x c u s k st : cval st u None -> cstep (Run SSkip (KFor x c u s k) st) Undef
| X_end st : cstep (Run SSkip KStop st) (Done None st)
| X_do b k st st' : exec_block I st b = Some st' -> cstep (Run (SDo b) k st) (Run SSkip k st')
| X_do_u b k st : exec_block I st b = None -> cstep (Run (SDo b) k st) Undef
| X_set x e k st v : cval st e (Some v) -> trange (g x) v -> cstep (Run (SSet x e) k st) (Run SSkip k (wr st x [] v))
| X_set_w x e k st v : cval st e (Some v) -> ~ trange (g x) v -> cstep (Run (SSet x e) k st) Wrapped
| X_set_u x e k st : cval st e None -> cstep (Run (SSet x e) k st) Undef
| X_seq a b k st : cstep (Run (SSeq a b) k st) (Run a (KSeq b k) st)
| X_if_t c a b k st v : cval st c (Some v) -> v <> 0 -> cstep (Run (SIf c a b) k st) (Run a k st)
| X_if_f c a b k st : cval st c (Some 0) -> cstep (Run (SIf c a b) k st) (Run b k st)
| X_if_u c a b k st : cval st c None -> cstep (Run (SIf c a b) k st) Undef
| X_while s k st : cstep (Run (SWhile s) k st) (Run s (KWhile s k) st)
| X_for x e c u s k st v : cval st e (Some v) -> trange (g x) v -> cstep (Run (SFor x e c u s) k st) (Run (SLoop x c u s) k (wr st x [] v))
| X_for_w x e c u s k st v : cval st e (Some v) -> ~ trange (g x) v -> cstep (Run (SFor x e c u s) k st) Wrapped
| X_for_u x e c u s k st : cval st e None -> cstep (Run (SFor x e c u s) k st) Undef
| X_loop_t x c u s k st v : cval st c (Some v) -> v <> 0 -> cstep (Run (SLoop x c u s) k st) (Run s (KFor x c u s k) st)
| X_loop_f x c u s k st : cval st c (Some 0) -> cstep (Run (SLoop x c u s) k st) (Run SSkip k st)
| X_loop_u x c u s k st : cval st c None -> cstep (Run (SLoop x c u s) k st) Undef
| X_break_seq s k st : cstep (Run SBreak (KSeq s k) st) (Run SBreak k st)
| X_break_while s k st : cstep (Run SBreak (KWhile s k) st) (Run SSkip k st)
| X_break_for x c u s k st : cstep (Run SBreak (KFor x c u s k) st) (Run SSkip k st)
| X_cont_seq s k st : cstep (Run SContinue (KSeq s k) st) (Run SContinue k st)
| X_cont_while s k st : cstep (Run SContinue (KWhile s k) st) (Run SSkip (KWhile s k) st)
| X_cont_for x c u s k st : cstep (Run SContinue (KFor x c u s k) st) (Run SSkip (KFor x c u s k) st)
| X_ret r k st : cstep (Run (SReturn r) k st) (Done (Some r) st).
Inductive csteps : nat -> cstate -> cstate -> Prop :=
| Z_refl a : csteps 0 a a
| Z_step n a b c : cstep a b -> csteps n b c -> csteps (S n) a c.

(** ** The programs considered: expressions with C text over the signed symbols, whose powers are squares *)
Fixpoint squares (e : expr) : bool :=
  match e with
  | EAdd l | EMul l | EMax l | EMin l => forallb squares l
  | EPow b n => Nat.eqb n 2 && squares b
  | EIdiv a b | EImod a b | ECeilDiv a b => squares a && squares b
  | EIabs a | EZext a | ETrunc a => squares a
  | _ => true
  end.
Fixpoint csquares (c : cond) : bool :=
  match c with
  | CEq a b | CNe a b | CLt a b | CLe a b => squares a && squares b
  | CAnd l | COr l => forallb csquares l
  | CNot c => csquares c
  | CBool _ => true
  end.
(** no division or conversion: defined for every value of the symbols *)
Fixpoint simple (e : expr) : bool :=
  match e with
  | EInt _ | ESym _ => true
  | EAdd l | EMul l => forallb simple l
  | EMax l | EMin l => nonempty l && forallb simple l
  | EPow b _ | EIabs b => simple b
  | _ => false
  end.
Fixpoint csimple (c : cond) : bool :=
  match c with
  | CEq a b | CNe a b | CLt a b | CLe a b => simple a && simple b
  | CAnd l | COr l => forallb csimple l
  | CNot c => csimple c
  | CBool _ => true
  end.
Definition okE (e : expr) : bool := printable V e && squares e.
Definition okC (c : cond) : bool := cprintable V c && csquares c && (leaf c || csimple c).
(** [B]: the blocks that store values of the right types (their code converts what it stores, C57) *)
Variable B : block -> bool.
Definition okA (a : assigns) : bool := forallb (fun p => V (fst p) && okE (snd p)) a.
Fixpoint okN (n : node) : bool :=
  match n with
  | NBlock b => B b
  | NBreak | NContinue | NReturn _ => true
  | NSeq s | NWhile s => okS s
  | NIf bs => okB bs
  | NLoop _ i init c u s => V i && okE init && okC c && okE u && okS s
  end
with okS (s : seq) : bool := match s with SNil => true | SCons n a r => okN n && okA a && okS r end
with okB (bs : brs) : bool := match bs with BNil => true | BCons c s r => okC c && okS s && okB r end.

(** ** Facts about expressions *)
Lemma squares_int s e : squares e = true -> int_powers s e = true.
Proof.
  induction e as [z| | |x|l IH|l IH|b n IH|l IH|l IH|a b IHa IHb|a b IHa IHb|a IHa|a IHa|a IHa|a b IHa IHb] using expr_ind'; cbn [squares int_powers]; intros H; auto;
    try (rewrite forallb_forall in *; rewrite Forall_forall in IH; intros u Hu; apply IH; auto);
    try (apply andb_true_iff in H; destruct H; rewrite IHa, IHb by auto; reflexivity).
  apply andb_true_iff in H. destruct H as [-> H]. rewrite IH by auto. reflexivity.
Qed.
Lemma csquares_int s c : csquares c = true -> cint_powers s c = true.
Proof.
  induction c as [b|a b|a b|a b|a b|l IH|l IH|c IH] using cond_ind'; cbn [csquares cint_powers]; intros H; auto;
    try (apply andb_true_iff in H; destruct H; rewrite !squares_int by auto; reflexivity);
    rewrite forallb_forall in *; rewrite Forall_forall in IH; intros u Hu; apply IH; auto.
Qed.
Lemma simple_fin s e : simple e = true -> exists z, ev s e = Fin z.
Proof.
  induction e as [z| | |x|l IH|l IH|b n IH|l IH|l IH|a b IHa IHb|a b IHa IHb|a IHa|a IHa|a IHa|a b IHa IHb] using expr_ind'; cbn [simple ev]; intros H; try discriminate; eauto.
  - induction IH as [|t l Ht _ IH]; cbn [forallb map xsum fold_right] in *; [eauto|]. apply andb_true_iff in H. destruct H as [H1 H2]. destruct (Ht H1) as (z & ->). destruct (IH H2) as (y & E). unfold xsum in E. rewrite E. cbn. eauto.
  - induction IH as [|t l Ht _ IH]; cbn [forallb map xprod fold_right] in *; [eauto|]. apply andb_true_iff in H. destruct H as [H1 H2]. destruct (Ht H1) as (z & ->). destruct (IH H2) as (y & E). unfold xprod in E. rewrite E. cbn. eauto.
  - destruct (IH H) as (z & ->). cbn. eauto.
  - apply andb_true_iff in H. destruct H as [N H]. induction IH as [|t l Ht _ IH]; [discriminate|]. cbn [forallb map] in *. apply andb_true_iff in H. destruct H as [H1 H2]. destruct (Ht H1) as (z & ->). destruct l as [|u l]; [cbn; eauto|].
    destruct (IH eq_refl H2) as (y & E). change (exists z0, xmax (Fin z) (xmaxl (map (ev s) (u :: l))) = Fin z0). rewrite E. cbn. eauto.
  - apply andb_true_iff in H. destruct H as [N H]. induction IH as [|t l Ht _ IH]; [discriminate|]. cbn [forallb map] in *. apply andb_true_iff in H. destruct H as [H1 H2]. destruct (Ht H1) as (z & ->). destruct l as [|u l]; [cbn; eauto|].
    destruct (IH eq_refl H2) as (y & E). change (exists z0, xmin (Fin z) (xminl (map (ev s) (u :: l))) = Fin z0). rewrite E. cbn. eauto.
  - destruct (IHa H) as (z & ->). cbn. eauto.
Qed.
Lemma csimple_def s c : csimple c = true -> cev s c <> None.
Proof.
  induction c as [b|a b|a b|a b|a b|l IH|l IH|c IH] using cond_ind'; cbn [csimple cev]; intros H; try discriminate;
    try (apply andb_true_iff in H; destruct H as [H1 H2]; destruct (simple_fin s a H1) as (x & ->); destruct (simple_fin s b H2) as (y & ->); discriminate).
  - induction IH as [|t l Ht _ IH]; cbn [forallb map fold_right] in *; [discriminate|]. apply andb_true_iff in H. destruct H as [H1 H2]. specialize (Ht H1). specialize (IH H2). destruct (cev s t); [|congruence]. destruct (fold_right _ _ _); [discriminate|congruence].
  - induction IH as [|t l Ht _ IH]; cbn [forallb map fold_right] in *; [discriminate|]. apply andb_true_iff in H. destruct H as [H1 H2]. specialize (Ht H1). specialize (IH H2). destruct (cev s t); [|congruence]. destruct (fold_right _ _ _); [discriminate|congruence].
  - specialize (IH H). destruct (cev s c); [discriminate|congruence].
Qed.
Lemma parses_fun ts a b : parses 0 ts (a, []) -> parses 0 ts (b, []) -> a = b.
Proof. intros (N & P) (M & Q). specialize (P (N + M)%nat ltac:(lia)). specialize (Q (N + M)%nat ltac:(lia)). congruence. Qed.
(** the text of an expression has a value or is undefined, and its value is that of the expression *)
Lemma expr_text st e : okE e = true -> typed st -> exists v, cval st (pr e) v /\ (forall w, cval st (pr e) w -> w = v) /\ (forall z, v = Some z -> eval (env_of st) e = Some z).
Proof.
  intros OK T. apply andb_true_iff in OK. destruct OK as [PR SQ]. destruct (expr_printed V g (env_of st) T e PR (squares_int _ _ SQ)) as (a & D & [_ Val] & _).
  assert (P : parses 0 (pr e) (a, [])) by (apply parse_full; eapply der_up; eauto; lia).
  exists (xeval g (env_of st) a). split; [exists a; auto|]. split.
  - intros w (b & PB & E). rewrite (parses_fun _ _ _ P PB). auto.
  - intros z E. unfold eval. rewrite (Val z E). reflexivity.
Qed.
Lemma cond_text st c : okC c = true -> typed st -> exists v, cval st (prc c) v /\ (forall w, cval st (prc c) w -> w = v) /\
  (forall z, v = Some z -> exists b, cev (env_of st) c = Some b /\ z = (if b then 1 else 0)).
Proof.
  intros OK T. apply andb_true_iff in OK. destruct OK as [OK LS]. apply andb_true_iff in OK. destruct OK as [PR SQ].
  destruct (cond_printed V g (env_of st) T c PR (csquares_int _ _ SQ)) as (a & D & Val & LF).
  assert (P : parses 0 (prc c) (a, [])) by (apply parse_full; eapply der_up; eauto; lia).
  exists (xeval g (env_of st) a). split; [exists a; auto|]. split.
  - intros w (b & PB & E). rewrite (parses_fun _ _ _ P PB). auto.
  - intros z E. assert (ND : cev (env_of st) c <> None). { apply orb_true_iff in LS. destruct LS as [L|L]; [apply (LF L z E)|apply csimple_def; auto]. }
    destruct (cev (env_of st) c) as [b|] eqn:CB; [|congruence]. exists b. split; auto. apply (Val z b E eq_refl).
Qed.
Lemma typed_wr st x v : V x = true -> typed st -> trange (g x) v -> typed (wr st x [] v).
Proof.
  intros VX T R y VY. unfold env_of. destruct (String.eqb_spec x y) as [->|N].
  - destruct (T y VY) as (w & W & G & _). rewrite G in R. exists w. split; auto. split; auto. rewrite wr_same. exact R.
  - rewrite wr_other by auto. exact (T y VY).
Qed.
Definition trange_dec t v : {trange t v} + {~ trange t v}.
Proof. destruct t as [|[|] w]; unfold trange; [destruct (Z_le_dec 0 v), (Z_le_dec v 1)|destruct (Z_le_dec (- 2 ^ (w - 1)) v), (Z_lt_dec v (2 ^ (w - 1)))|destruct (Z_le_dec 0 v), (Z_lt_dec v (2 ^ w))]; (left; lia) || (right; lia). Defined.

Hypothesis keeps : forall b st st', B b = true -> typed st -> exec_block I st b = Some st' -> typed st'.

(** ** Every execution of the program is an execution of its C code, unless that stops at [Undef] or [Wrapped] *)
Definition stm (o : outcome) : cstmt := match o with ONorm => SSkip | OBrk => SBreak | OCont => SContinue | ORet r => SReturn r end.
Inductive star : cstate -> cstate -> Prop := star_refl a : star a a | star_step a b c : cstep a b -> star b c -> star a c.
Lemma star_trans a b c : star a b -> star b c -> star a c.
Proof. induction 1; eauto using star. Qed.
Lemma star_one a b : cstep a b -> star a b.
Proof. intros; eapply star_step; eauto; constructor. Qed.
Definition fails (a : cstate) : Prop := star a Undef \/ star a Wrapped.
(** where an execution with outcome [o] continues *)
Definition tgt (o : outcome) (k : kont) (st : store) : cstate := match o with ORet r => Done (Some r) st | _ => Run (stm o) k st end.
(** from [a] the machine reaches [tgt o k st] with a typed store, or fails *)
Definition arrives (a : cstate) (o : outcome) (k : kont) (st : store) : Prop := (typed st /\ star a (tgt o k st)) \/ fails a.
Lemma fails_pre a b : star a b -> fails b -> fails a.
Proof. intros S [F|F]; [left|right]; eapply star_trans; eauto. Qed.
Lemma arrives_pre a b o k st : star a b -> arrives b o k st -> arrives a o k st.
Proof. intros S [[T R]|F]; [left; split; auto; eapply star_trans; eauto|right; eapply fails_pre; eauto]. Qed.
Lemma arrives_bind a o k st o' k' st' : arrives a o k st -> (typed st -> arrives (tgt o k st) o' k' st') -> arrives a o' k' st'.
Proof. intros [[T R]|F] N; [eapply arrives_pre; eauto|right; auto]. Qed.
Lemma arrives_here o k st : typed st -> arrives (tgt o k st) o k st.
Proof. intros T. left. split; auto. constructor. Qed.
(** one assignment *)
Lemma set_step st x e v : V x = true -> okE e = true -> typed st -> eval (env_of st) e = Some v ->
  (cval st (pr e) (Some v) /\ trange (g x) v) \/ cval st (pr e) None \/ (exists w, cval st (pr e) (Some w) /\ ~ trange (g x) w).
Proof.
  intros VX OK T E. destruct (expr_text st e OK T) as (c & C & _ & H). destruct c as [z|]; [|auto]. specialize (H z eq_refl). assert (z = v) by congruence. subst z.
  destruct (trange_dec (g x) v); eauto.
Qed.
Lemma assigns_sim k : forall a st st', okA a = true -> typed st -> exec_assigns st a = Some st' -> arrives (Run (genA a) k st) ONorm k st'.
Proof.
  induction a as [|[x e] a IH]; intros st st' OK T E; cbn [genA exec_assigns] in *.
  - inversion E; subst. apply (arrives_here ONorm); auto.
  - cbn [okA forallb fst snd] in OK. apply andb_true_iff in OK. destruct OK as [O1 O2]. apply andb_true_iff in O1. destruct O1 as [VX OE].
    destruct (eval (env_of st) e) as [v|] eqn:EV; [|discriminate].
    eapply arrives_pre; [apply star_one, X_seq|]. destruct (set_step st x e v VX OE T EV) as [[C R]|[C|(w & C & R)]].
    + eapply arrives_pre; [eapply star_step; [apply X_set; eauto|]; apply star_one, X_skip_seq|]. apply IH; auto. apply typed_wr; auto.
    + right. left. apply star_one, X_set_u; auto.
    + right. right. apply star_one. eapply X_set_w; eauto.
Qed.
Lemma seq_exit o k s st : o <> ONorm -> typed st -> arrives (tgt o (KSeq s k) st) o k st.
Proof.
  intros N T. destruct o as [| | |r]; [congruence| | |apply (arrives_here (ORet r) k); auto]; cbn [tgt stm].
  - eapply arrives_pre; [apply star_one; constructor|]. apply (arrives_here OBrk); auto.
  - eapply arrives_pre; [apply star_one; constructor|]. apply (arrives_here OCont); auto.
Qed.
Lemma cond_step st c b : okC c = true -> typed st -> cev (env_of st) c = Some b ->
  cval st (prc c) (Some (if b then 1 else 0)) \/ cval st (prc c) None.
Proof.
  intros OK T E. destruct (cond_text st c OK T) as (v & C & _ & H). destruct v as [z|]; [|auto]. destruct (H z eq_refl) as (b' & E' & ->). assert (b' = b) by congruence. subst. auto.
Qed.
Ltac ands := repeat match goal with H : andb _ _ = true |- _ => apply andb_true_iff in H; destruct H end.
Lemma run_sim :
  (forall n st o st', run I n st o st' -> okN n = true -> typed st -> forall k, arrives (Run (genN n) k st) o k st') /\
  (forall s st o st', runs I s st o st' -> okS s = true -> typed st -> forall k, arrives (Run (genS s) k st) o k st') /\
  (forall bs st o st', runb I bs st o st' -> okB bs = true -> typed st -> forall k, arrives (Run (genB bs) k st) o k st') /\
  (forall s st o st', runw I s st o st' -> okS s = true -> typed st -> forall k, arrives (Run (SWhile (genS s)) k st) o k st') /\
  (forall i c u s st o st', runl I i c u s st o st' -> V i = true -> okC c = true -> okE u = true -> okS s = true -> typed st -> forall k, arrives (Run (SLoop i (prc c) (pr u) (genS s)) k st) o k st').
Proof.
  apply run_mind; cbn [okN okS okB genN genS genB].
  - intros b st st' E OK T k. eapply arrives_pre; [apply star_one, X_do; eauto|]. apply (arrives_here ONorm). eauto.
  - auto.
  - auto.
  - auto.
  - intros kd i init c u s st v o st' E _ IH OK T k. ands.
    destruct (set_step st i init v) as [[C R]|[C|(w & C & R)]]; auto.
    + eapply arrives_pre; [apply star_one; eapply X_for; eauto|]. apply IH; auto. apply typed_wr; auto.
    + right. left. apply star_one. eapply X_for_u; eauto.
    + right. right. apply star_one. eapply X_for_w; eauto.
  - intros st _ T k. apply (arrives_here OBrk); auto.
  - intros st _ T k. apply (arrives_here OCont); auto.
  - intros r st _ T k. left. split; auto. apply star_one, X_ret.
  - intros st _ T k. apply (arrives_here ONorm); auto.
  - intros n a r st st1 st2 o st' _ IHn EA _ IHr OK T k. ands.
    eapply arrives_pre; [apply star_one, X_seq|]. eapply arrives_bind; [apply IHn; auto|]. intros T1. cbn [tgt stm].
    eapply arrives_pre; [eapply star_step; [apply X_skip_seq|]; apply star_one, X_seq|]. eapply arrives_bind; [apply assigns_sim; eauto|]. intros T2. cbn [tgt stm].
    eapply arrives_pre; [apply star_one, X_skip_seq|]. apply IHr; auto.
  - intros n a r st o st' _ IHn NO OK T k. ands.
    eapply arrives_pre; [apply star_one, X_seq|]. eapply arrives_bind; [apply IHn; auto|]. intros T1. apply seq_exit; auto.
  - intros st _ T k. apply (arrives_here ONorm); auto.
  - intros c s r st o st' E _ IH OK T k. ands.
    destruct (cond_step st c true) as [C|C]; auto; [|right; left; apply star_one; eapply X_if_u; eauto].
    eapply arrives_pre; [apply star_one; eapply X_if_t; eauto; discriminate|]. apply IH; auto.
  - intros c s r st o st' E _ IH OK T k. ands.
    destruct (cond_step st c false) as [C|C]; auto; [|right; left; apply star_one; eapply X_if_u; eauto].
    eapply arrives_pre; [apply star_one; eapply X_if_f; eauto|]. apply IH; auto.
  - intros s st o1 st1 o st' _ IHs O1 _ IHw OK T k. eapply arrives_pre; [apply star_one, X_while|]. eapply arrives_bind; [apply IHs; auto|]. intros T1.
    assert (ST : star (tgt o1 (KWhile (genS s) k) st1) (Run (SWhile (genS s)) k st1)).
    { destruct O1 as [->| ->]; cbn [tgt stm]; [apply star_one, X_skip_while|]. eapply star_step; [apply X_cont_while|]. apply star_one, X_skip_while. }
    eapply arrives_pre; [exact ST|]. apply IHw; auto.
  - intros s st st' _ IHs OK T k. eapply arrives_pre; [apply star_one, X_while|]. eapply arrives_bind; [apply IHs; auto|]. intros T1. cbn [tgt stm].
    eapply arrives_pre; [apply star_one, X_break_while|]. apply (arrives_here ONorm); auto.
  - intros s st r st' _ IHs OK T k. eapply arrives_pre; [apply star_one, X_while|]. eapply arrives_bind; [apply IHs; auto|]. intros T1. apply (arrives_here (ORet r) k); auto.
  - intros i c u s st E VI OC OU OS T k. destruct (cond_step st c false) as [C|C]; auto; [|right; left; apply star_one; eapply X_loop_u; eauto].
    eapply arrives_pre; [apply star_one; eapply X_loop_f; eauto|]. apply (arrives_here ONorm); auto.
  - intros i c u s st o1 st1 v o st' E _ IHs O1 EU _ IHl VI OC OU OS T k. destruct (cond_step st c true) as [C|C]; auto; [|right; left; apply star_one; eapply X_loop_u; eauto].
    eapply arrives_pre; [apply star_one; eapply X_loop_t; eauto; discriminate|]. eapply arrives_bind; [apply IHs; auto|]. intros T1.
    assert (ST : star (tgt o1 (KFor i (prc c) (pr u) (genS s) k) st1) (Run SSkip (KFor i (prc c) (pr u) (genS s) k) st1)).
    { destruct O1 as [->| ->]; cbn [tgt stm]; [constructor|]. apply star_one, X_cont_for. }
    eapply arrives_pre; [exact ST|]. destruct (set_step st1 i u v) as [[CU R]|[CU|(w & CU & R)]]; auto.
    + eapply arrives_pre; [apply star_one; eapply X_skip_for; eauto|]. apply IHl; auto. apply typed_wr; auto.
    + right. left. apply star_one. eapply X_skip_for_u; eauto.
    + right. right. apply star_one. eapply X_skip_for_w; eauto.
  - intros i c u s st st' E _ IHs VI OC OU OS T k. destruct (cond_step st c true) as [C|C]; auto; [|right; left; apply star_one; eapply X_loop_u; eauto].
    eapply arrives_pre; [apply star_one; eapply X_loop_t; eauto; discriminate|]. eapply arrives_bind; [apply IHs; auto|]. intros T1. cbn [tgt stm].
    eapply arrives_pre; [apply star_one, X_break_for|]. apply (arrives_here ONorm); auto.
  - intros i c u s st r st' E _ IHs VI OC OU OS T k. destruct (cond_step st c true) as [C|C]; auto; [|right; left; apply star_one; eapply X_loop_u; eauto].
    eapply arrives_pre; [apply star_one; eapply X_loop_t; eauto; discriminate|]. eapply arrives_bind; [apply IHs; auto|]. intros T1. apply (arrives_here (ORet r) k); auto.
Qed.

(** ** Every execution of the C code that ends is an execution of the program *)
Lemma no_undef N r st : csteps N Undef (Done r st) -> False.
Proof. inversion 1 as [|? ? ? ? H1]; inversion H1. Qed.
Lemma no_wrapped N r st : csteps N Wrapped (Done r st) -> False.
Proof. inversion 1 as [|? ? ? ? H1]; inversion H1. Qed.
Lemma first_step N s k st r st' : csteps N (Run s k st) (Done r st') -> exists M b, N = S M /\ cstep (Run s k st) b /\ csteps M b (Done r st').
Proof. inversion 1; subst; eauto. Qed.
Lemma set_back st e v : okE e = true -> typed st -> cval st (pr e) (Some v) -> eval (env_of st) e = Some v.
Proof. intros OK T C. destruct (expr_text st e OK T) as (w & _ & U & H). specialize (U _ C). auto. Qed.
Lemma cond_back st c v : okC c = true -> typed st -> cval st (prc c) (Some v) -> (v <> 0 -> cev (env_of st) c = Some true) /\ (v = 0 -> cev (env_of st) c = Some false).
Proof.
  intros OK T C. destruct (cond_text st c OK T) as (w & _ & U & H). specialize (U _ C). subst w. destruct (H v eq_refl) as (b & E & ->). destruct b; split; intros; auto; congruence.
Qed.
Ltac first H := let M := fresh "M" in let b := fresh "b" in let E := fresh "EN" in let S := fresh "S1" in
  destruct (first_step _ _ _ _ _ _ H) as (M & b & E & S & ?); clear H; inversion S; subst; clear S.
Ltac dead := match goal with H : csteps _ Undef _ |- _ => destruct (no_undef _ _ _ H) | H : csteps _ Wrapped _ |- _ => destruct (no_wrapped _ _ _ H) end.
Lemma assigns_back k r st' : forall a N st, okA a = true -> typed st -> csteps N (Run (genA a) k st) (Done r st') ->
  exists st2 M, (M <= N)%nat /\ exec_assigns st a = Some st2 /\ typed st2 /\ csteps M (Run SSkip k st2) (Done r st').
Proof.
  induction a as [|[x e] a IH]; intros N st OK T H; cbn [genA exec_assigns] in *; [exists st, N; auto|].
  cbn [okA forallb fst snd] in OK. ands. first H. 
  match goal with H : csteps _ (Run (SSet _ _) _ _) _ |- _ => first H end; try dead.
  match goal with H : csteps _ (Run SSkip _ _) _ |- _ => first H end.
  match goal with C : cval _ _ _ |- _ => erewrite set_back by eauto end.
  match goal with H : csteps _ (Run (genA a) _ _) _ |- _ => destruct (IH _ _ ltac:(assumption) ltac:(apply typed_wr; eauto) H) as (st2 & M' & L & EA & T2 & Z) end.
  exists st2, M'. split; [lia|]. auto.
Qed.
Definition comes (N : nat) (k : kont) (r : option string) (st' : store) (R : outcome -> store -> Prop) : Prop :=
  exists o st1 M, (M <= N)%nat /\ R o st1 /\ typed st1 /\ csteps M (tgt o k st1) (Done r st').
Lemma back_sim r st' : forall N,
  (forall s st k, okS s = true -> typed st -> csteps N (Run (genS s) k st) (Done r st') -> comes N k r st' (runs I s st)) /\
  (forall bs st k, okB bs = true -> typed st -> csteps N (Run (genB bs) k st) (Done r st') -> comes N k r st' (runb I bs st)) /\
  (forall s st k, okS s = true -> typed st -> csteps N (Run (SWhile (genS s)) k st) (Done r st') -> comes N k r st' (runw I s st)) /\
  (forall i c u s st k, V i = true -> okC c = true -> okE u = true -> okS s = true -> typed st -> csteps N (Run (SLoop i (prc c) (pr u) (genS s)) k st) (Done r st') -> comes N k r st' (runl I i c u s st)) /\
  (forall n st k, okN n = true -> typed st -> csteps N (Run (genN n) k st) (Done r st') -> comes N k r st' (run I n st)).
Proof.
  intros N. induction N as [N IH] using lt_wf_ind.
  assert (PS : forall s st k, okS s = true -> typed st -> csteps N (Run (genS s) k st) (Done r st') -> comes N k r st' (runs I s st)).
  { intros [|n a q] st k OK T H; cbn [okS genS] in *.
    - exists ONorm, st, N. split; [lia|]. split; [constructor|]. split; auto.
    - ands. first H. match goal with H : csteps ?M (Run (genN n) _ _) _ |- _ => destruct (proj2 (proj2 (proj2 (proj2 (IH M ltac:(lia))))) n st _ ltac:(assumption) T H) as (o & st1 & M1 & L1 & R1 & T1 & Z1) end.
      assert (DO : o = ONorm \/ o <> ONorm) by (destruct o; auto; right; discriminate). destruct DO as [->|NO].
      + cbn [tgt stm] in Z1. first Z1. match goal with H : csteps _ (Run (SSeq _ _) _ _) _ |- _ => first H end.
        match goal with H : csteps _ (Run (genA a) _ _) _ |- _ => destruct (assigns_back _ _ _ _ _ _ ltac:(eassumption) T1 H) as (st2 & M2 & L2 & EA & T2 & Z2) end. first Z2.
        match goal with H : csteps ?M (Run (genS q) _ _) _ |- _ => destruct (proj1 (IH M ltac:(lia)) q st2 k ltac:(assumption) T2 H) as (o & st3 & M3 & L3 & R3 & T3 & Z3) end.
        exists o, st3, M3. split; [lia|]. split; [eapply R_cons; eauto|]. auto.
      + assert (Z2 : exists M2, (M2 <= M1)%nat /\ csteps M2 (tgt o k st1) (Done r st')).
        { destruct o as [| | |q']; [congruence| | |exists M1; split; [lia|exact Z1]]; cbn [tgt stm] in *; first Z1; eexists; (split; [|eassumption]); lia. }
        destruct Z2 as (M2 & L2 & Z2). exists o, st1, M2. split; [lia|]. split; [apply R_exit; auto|]. auto. }
  assert (PB : forall bs st k, okB bs = true -> typed st -> csteps N (Run (genB bs) k st) (Done r st') -> comes N k r st' (runb I bs st)).
  { intros [|c s q] st k OK T H; cbn [okB genB] in *.
    - exists ONorm, st, N. split; [lia|]. split; [constructor|]. split; auto.
    - ands. first H; try dead.
      + match goal with C : cval _ _ _ |- _ => apply cond_back in C; [|assumption|assumption]; destruct C as [C _] end.
        match goal with H : csteps ?M (Run (genS s) _ _) _ |- _ => destruct (proj1 (IH M ltac:(lia)) s st k ltac:(assumption) T H) as (o & st3 & M3 & L3 & R3 & T3 & Z3) end.
        exists o, st3, M3. split; [lia|]. split; [apply R_btrue; auto|]. auto.
      + match goal with C : cval _ _ _ |- _ => apply cond_back in C; [|assumption|assumption]; destruct C as [_ C] end.
        match goal with H : csteps ?M (Run (genB q) _ _) _ |- _ => destruct (proj1 (proj2 (IH M ltac:(lia))) q st k ltac:(assumption) T H) as (o & st3 & M3 & L3 & R3 & T3 & Z3) end.
        exists o, st3, M3. split; [lia|]. split; [apply R_bfalse; auto|]. auto. }
  assert (PW : forall s st k, okS s = true -> typed st -> csteps N (Run (SWhile (genS s)) k st) (Done r st') -> comes N k r st' (runw I s st)).
  { intros s st k OK T H. first H. match goal with H : csteps ?M (Run (genS s) _ _) _ |- _ => destruct (proj1 (IH M ltac:(lia)) s st _ OK T H) as (o & st1 & M1 & L1 & R1 & T1 & Z1) end.
    destruct o as [| | |q]; cbn [tgt stm] in Z1.
    - first Z1. match goal with H : csteps ?M (Run (SWhile _) _ _) _ |- _ => destruct (proj1 (proj2 (proj2 (IH M ltac:(lia)))) s st1 k OK T1 H) as (o & st3 & M3 & L3 & R3 & T3 & Z3) end.
      exists o, st3, M3. split; [lia|]. split; [eapply R_wnext; eauto|]. auto.
    - first Z1. exists ONorm, st1. eexists. split; [|split; [apply R_wbreak; eauto|split; [exact T1|eassumption]]]. lia.
    - first Z1. match goal with H : csteps _ (Run SSkip _ _) _ |- _ => first H end.
      match goal with H : csteps ?M (Run (SWhile _) _ _) _ |- _ => destruct (proj1 (proj2 (proj2 (IH M ltac:(lia)))) s st1 k OK T1 H) as (o & st3 & M3 & L3 & R3 & T3 & Z3) end.
      exists o, st3, M3. split; [lia|]. split; [eapply R_wnext; eauto|]. auto.
    - exists (ORet q), st1, M1. split; [lia|]. split; [apply R_wret; auto|]. auto. }
  assert (PL : forall i c u s st k, V i = true -> okC c = true -> okE u = true -> okS s = true -> typed st -> csteps N (Run (SLoop i (prc c) (pr u) (genS s)) k st) (Done r st') -> comes N k r st' (runl I i c u s st)).
  { intros i c u s st k VI OC OU OS T H. first H; try dead.
    - match goal with C : cval _ _ _ |- _ => apply cond_back in C; [|assumption|assumption]; destruct C as [C _]; specialize (C ltac:(assumption)) end.
      match goal with H : csteps ?M (Run (genS s) _ _) _ |- _ => destruct (proj1 (IH M ltac:(lia)) s st _ OS T H) as (o & st1 & M1 & L1 & R1 & T1 & Z1) end.
      assert (NX : forall M2, (M2 <= M1)%nat -> o = ONorm \/ o = OCont -> csteps M2 (Run SSkip (KFor i (prc c) (pr u) (genS s) k) st1) (Done r st') -> comes (S M) k r st' (runl I i c u s st)).
      { intros M2 L2 HO Z2. first Z2; try dead. match goal with C : cval _ _ _ |- _ => pose proof (set_back _ _ _ OU T1 C) as EU end.
        match goal with H : csteps ?M (Run (SLoop _ _ _ _) _ _) _ |- _ => destruct (proj1 (proj2 (proj2 (proj2 (IH M ltac:(lia))))) i c u s _ k VI OC OU OS ltac:(apply typed_wr; eauto) H) as (o3 & st3 & M3 & L3 & R3 & T3 & Z3) end.
        exists o3, st3, M3. split; [lia|]. split; [eapply R_lnext; eauto|]. auto. }
      destruct o as [| | |q]; cbn [tgt stm] in Z1.
      + apply (NX M1); auto; lia.
      + first Z1. exists ONorm, st1. eexists. split; [|split; [apply R_lbreak; eauto|split; [exact T1|eassumption]]]. lia.
      + first Z1. eapply NX; [|auto|eassumption]. lia.
      + exists (ORet q), st1, M1. split; [lia|]. split; [apply R_lret; auto|]. auto.
    - match goal with C : cval _ _ _ |- _ => apply cond_back in C; [|assumption|assumption]; destruct C as [_ C]; specialize (C eq_refl) end.
      exists ONorm, st. eexists. split; [|split; [apply R_lend; auto|split; [exact T|eassumption]]]. lia. }
  split; [exact PS|]. split; [exact PB|]. split; [exact PW|]. split; [exact PL|].
  intros n st k OK T H. destruct n as [b|s|bs|s|kd i init c u s| | |q]; cbn [okN genN] in *.
  - first H; try dead. exists ONorm. do 2 eexists. split; [|split; [apply R_block; eauto|split; [eapply keeps; eauto|eassumption]]]. lia.
  - destruct (PS s st k OK T H) as (o & st3 & M3 & L3 & R3 & T3 & Z3). exists o, st3, M3. split; [lia|]. split; [constructor; auto|]. auto.
  - destruct (PB bs st k OK T H) as (o & st3 & M3 & L3 & R3 & T3 & Z3). exists o, st3, M3. split; [lia|]. split; [constructor; auto|]. auto.
  - destruct (PW s st k OK T H) as (o & st3 & M3 & L3 & R3 & T3 & Z3). exists o, st3, M3. split; [lia|]. split; [constructor; auto|]. auto.
  - ands. first H; try dead. match goal with C : cval _ (pr ?e) _, O : okE ?e = true |- _ => pose proof (set_back _ _ _ O T C) as EU end.
    match goal with H : csteps ?M (Run (SLoop _ _ _ _) _ _) _ |- _ => destruct (proj1 (proj2 (proj2 (proj2 (IH M ltac:(lia))))) i c u s _ k ltac:(assumption) ltac:(assumption) ltac:(assumption) ltac:(assumption) ltac:(apply typed_wr; eauto) H) as (o3 & st3 & M3 & L3 & R3 & T3 & Z3) end.
    exists o3, st3, M3. split; [lia|]. split; [econstructor; eauto|]. auto.
  - exists OBrk, st, N. split; [lia|]. split; [constructor|]. auto.
  - exists OCont, st, N. split; [lia|]. split; [constructor|]. auto.
  - first H. exists (ORet q), st. eexists. split; [|split; [constructor|split; [exact T|eassumption]]]. lia.
Qed.
End Machine.
