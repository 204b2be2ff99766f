(** Expansion of the BLAS nodes dot and gemm.

    Models sdfg/src/data_flow/library_nodes/math/blas/dot_node.cpp:69-158 and
    gemm_node.cpp:96-330.  Memory is flat here: an element of a matrix is the
    cell with the linear index the code computes. *)
From Verif Require Export TensorMulti.
From Verif Require Import SymFacts SymProofs1.
Open Scope string_scope.
Open Scope Z_scope.
Import ListNotations.

(** dot_node.cpp:104-147: for i < n: res = fma(x[i*incx], y[i*incy], res).
    The result is not initialised. *)
Definition expand_dot (fmac : nat) (x y res : string) (n incx incy : expr) (i : string) : node :=
  NSeq (nest [(KFor, i, n)]
    (single [{| o_code := fmac; o_ins := [ORead x [smul (ESym i) incx]; ORead y [smul (ESym i) incy]; ORead res []];
                o_out := res; o_sub := [] |}])).

(** alpha, beta: a constant or a scalar container (gemm_node.cpp:252-260, 276-286) *)
Definition factor_in (a : earg) : operand := earg_in [] a.
Record gemm_vars := { g_i : string; g_j : string; g_k : string; g_sum : string; g_ts : string; g_ti : string }.
(** gemm_node.cpp:180-311: maps over i < m, j < n; sum = 0; for k: sum = fma;
    C[ldc*i+j] = sum*alpha + C[ldc*i+j]*beta. *)
(** A pointer argument: a container, or a reference into one (matmul_node.cpp:455-463);
    the reference is the scalar that holds its offset. *)
Record base := { b_mem : string; b_ref : option string }.
Definition base_names (b : base) : list string := match b_ref b with Some r => [r] | None => [] end.
Definition at_base (b : base) (e : expr) : expr := match b_ref b with Some r => sadd (ESym r) e | None => e end.
Definition base_val (st : store) (b : base) : Z := match b_ref b with Some r => st r [] | None => 0 end.
Definition plain (x : string) : base := {| b_mem := x; b_ref := None |}.
Definition gemm_body (fmac mulc addc : nat) (zc : Z) (A B Cin Cout : base) (alpha beta : earg) (k lda ldb ldc : expr) (v : gemm_vars) : seq :=
  let i := ESym (g_i v) in let j := ESym (g_j v) in let kk := ESym (g_k v) in
  SCons (NBlock [{| o_code := 0; o_ins := [OConst zc]; o_out := g_sum v; o_sub := [] |}]) []
  (sapp (nest [(KFor, g_k v, k)]
     (single [{| o_code := fmac; o_ins := [ORead (b_mem A) [at_base A (sadd (smul lda i) kk)]; ORead (b_mem B) [at_base B (sadd (smul ldb kk) j)]; ORead (g_sum v) []];
                 o_out := g_sum v; o_sub := [] |}]))
  (single [{| o_code := mulc; o_ins := [ORead (g_sum v) []; factor_in alpha]; o_out := g_ts v; o_sub := [] |};
           {| o_code := mulc; o_ins := [ORead (b_mem Cin) [at_base Cin (sadd (smul ldc i) j)]; factor_in beta]; o_out := g_ti v; o_sub := [] |};
           {| o_code := addc; o_ins := [ORead (g_ts v) []; ORead (g_ti v) []]; o_out := b_mem Cout; o_sub := [at_base Cout (sadd (smul ldc i) j)] |}])).
(** gemm_node.cpp:105-113: [None] when a matrix is transposed; the layout (row
    or column major) is not looked at. *)
Inductive layout := RowMajor | ColMajor.
Definition expand_gemm (lay : layout) (trans_a trans_b : bool) (fmac mulc addc : nat) (zc : Z) (A B Cin Cout : base)
    (alpha beta : earg) (m n k lda ldb ldc : expr) (v : gemm_vars) : option node :=
  if trans_a || trans_b then None
  else Some (NSeq (nest (maps [g_i v; g_j v] [m; n]) (gemm_body fmac mulc addc zc A B Cin Cout alpha beta k lda ldb ldc v))).

(* ------------------------------------------------------------------ *)
Lemma eval_plus s a b x y : eval s a = Some x -> eval s b = Some y -> eval s (sadd a b) = Some (x + y).
Proof. rewrite !eval_ev, ev_sadd. intros -> ->. reflexivity. Qed.

(** A nest that accumulates into one scalar. *)
Lemma accum_nest I b l dims acc (step : list Z -> Z -> Z) (st0 : store) :
  NoDup (map lvar l) -> ~ In acc (map lvar l) ->
  Forall2 (fun e d => eval (env_of st0) (lbound e) = Some d) l dims ->
  (forall e x, In e l -> In x (atoms (lbound e)) -> ~ In x (map lvar l) /\ x <> acc) ->
  (forall (st : store) idx, In idx (box dims) ->
     (forall z i, ~ In z (map lvar l) -> (z <> acc \/ i <> []) -> st z i = st0 z i) ->
     Forall2 (fun v z => st v [] = z) (map lvar l) idx ->
     exec_block I st b = Some (wr st acc [] (step idx (st acc [])))) ->
  exists st', runs I (nest l (single b)) st0 ONorm st' /\
    st' acc [] = fold_left (fun a j => step j a) (box dims) (st0 acc []) /\
    (forall z i, ~ In z (map lvar l) -> (z <> acc \/ i <> []) -> st' z i = st0 z i).
Proof.
  intros Hnd Hacc HB Hat Hb.
  set (Q := fun (done : list (list Z)) (st : store) =>
    st acc [] = fold_left (fun a j => step j a) done (st0 acc []) /\
    (forall z i, ~ In z (map lvar l) -> (z <> acc \/ i <> []) -> st z i = st0 z i)).
  destruct (nest_run I (single b) l dims Q st0) as (st' & R & Q1 & Q2); auto.
  - intros done st v z Hv [H1 H2]. split.
    + rewrite IRFacts.wr_other; auto. left. intros ->. auto.
    + intros w i Hw K2. rewrite IRFacts.wr_other; auto. left. intros ->. auto.
  - intros done st [H1 H2].
    assert (G : forall e, In e l -> eval (env_of st) (lbound e) = eval (env_of st0) (lbound e)).
    { intros e He. apply eval_eqx with (D := fun x => In x (map lvar l) \/ x = acc).
      - intros x Hx i. apply H2; [intros K; apply Hx; auto|left; intros ->; apply Hx; auto].
      - intros x Hx K. destruct (Hat e x He Hx). tauto. }
    clear -G HB. induction HB as [|e d l dims He HB IH]; constructor.
    + rewrite G by (left; auto). auto.
    + apply IH. intros; apply G; right; auto.
  - intros done idx rest st Hbox [H1 H2] Hv.
    assert (Hin : In idx (box dims)) by (rewrite Hbox; apply in_or_app; right; left; auto).
    exists (wr st acc [] (step idx (st acc []))). split; [|split].
    + apply R_cons with (st1 := wr st acc [] (step idx (st acc []))) (st2 := wr st acc [] (step idx (st acc [])));
        [apply R_block; apply Hb; auto|reflexivity|apply R_nil].
    + split.
      * rewrite wr_same, fold_left_app, <- H1. reflexivity.
      * intros z i Hz K2. rewrite IRFacts.wr_other; auto. destruct K2 as [K2|K2]; auto.
    + intros v0 Hv0. apply IRFacts.wr_other. left. intros ->. auto.
  - split; auto.
  - exists st'. split; auto.
Qed.
Lemma box1 n : box [n] = map (fun v => [v]) (zrange n).
Proof. cbn. generalize (zrange n). intros l. induction l as [|v l IH]; cbn; auto. Qed.
Lemma fold_map {A B} (f : Z -> B -> Z) (g : A -> B) l : forall i, fold_left f (map g l) i = fold_left (fun a x => f a (g x)) l i.
Proof. induction l as [|a l IH]; intros i; cbn; auto. Qed.
Lemma accum_run I b k K n acc (step : Z -> Z -> Z) (st0 : store) :
  k <> acc -> eval (env_of st0) K = Some n -> (forall x, In x (atoms K) -> x <> k /\ x <> acc) ->
  (forall (st : store) v, 0 <= v < n -> (forall z i, z <> k -> (z <> acc \/ i <> []) -> st z i = st0 z i) -> st k [] = v ->
     exec_block I st b = Some (wr st acc [] (step v (st acc [])))) ->
  exists st', runs I (nest [(KFor, k, K)] (single b)) st0 ONorm st' /\
    st' acc [] = fold_left (fun a v => step v a) (zrange n) (st0 acc []) /\
    (forall z i, z <> k -> (z <> acc \/ i <> []) -> st' z i = st0 z i).
Proof.
  intros Hka HK Hat Hb.
  destruct (accum_nest I b [(KFor, k, K)] [n] acc (fun j a => step (hd 0 j) a) st0) as (st' & R & V & F).
  - cbn. constructor; [intros []|constructor].
  - cbn. intros [->|[]]. auto.
  - repeat constructor; auto.
  - intros e x [<-|[]] Hx. destruct (Hat x Hx). cbn. intuition congruence.
  - intros st idx Hin Fr Hv. cbn in Hv. inversion Hv as [|? v ? r Hv1 Hr]; subst. inversion Hr; subst.
    apply box_In in Hin. inversion Hin as [|? ? ? ? Hr2 _]; subst. cbn [hd].
    apply Hb; auto. intros z i Hz K2. apply Fr; auto. cbn. intuition congruence.
  - exists st'. split; auto. split.
    + rewrite V, box1, fold_map. reflexivity.
    + intros z i Hz K2. apply F; auto. cbn. intuition congruence.
Qed.

(** Like [scatter] for an arbitrary body. *)
Lemma scatter_body I (body : seq) l dims hid y g f st0 :
  NoDup (map lvar l) -> incl (map lvar l) hid -> ~ In y hid ->
  Forall2 (fun e d => eval (env_of st0) (lbound e) = Some d) l dims ->
  (forall e x, In e l -> In x (atoms (lbound e)) -> x <> y /\ ~ In x hid) ->
  (forall j j', In j (box dims) -> In j' (box dims) -> g j = g j' -> j = j') ->
  (forall done idx rest st, box dims = (done ++ idx :: rest)%list -> scattered hid y g f st0 done st ->
    Forall2 (fun v z => st v [] = z) (map lvar l) idx ->
    exists st', runs I body st ONorm st' /\ st' y (g idx) = f idx /\
      (forall z k, ~ In z hid -> (z <> y \/ k <> g idx) -> st' z k = st z k) /\
      (forall v, In v (map lvar l) -> st' v [] = st v [])) ->
  exists st', runs I (nest l body) st0 ONorm st' /\ scattered hid y g f st0 (box dims) st'.
Proof.
  intros Hnd Hh Hy Hd Ha Hg Hb.
  apply nest_run with (Q := scattered hid y g f st0); auto.
  - intros done st v z Hv [H1 H2]. apply Hh in Hv. split.
    + intros j Hj. rewrite IRFacts.wr_other; auto. left. intros ->. auto.
    + intros w k Hw K. rewrite IRFacts.wr_other; auto. left. intros ->. auto.
  - intros done st [H1 H2]. clear Hb Hnd Hh Hg. revert Ha. induction Hd as [|e d l dims He Hd IH]; intros Ha; constructor.
    + rewrite <- He. apply eval_eqx with (D := fun x => x = y \/ In x hid).
      * intros x Hx j. apply H2; [intros K; apply Hx; auto|]. left. intros ->. apply Hx; auto.
      * intros x K Hx. destruct (Ha e x (or_introl eq_refl) K) as [A B]. destruct Hx; auto.
    + apply IH; auto.
      intros e' x He' Hx. apply (Ha e' x); auto. right; auto.
  - intros done idx rest st Hbox HQ Hv.
    destruct (Hb done idx rest st Hbox HQ Hv) as (st' & E & Ey & Eo & Ev).
    exists st'. split; [auto|split; [|auto]].
    destruct HQ as [H1 H2].
    assert (Hin : forall j, In j done -> In j (box dims)) by (intros j Hj; rewrite Hbox; apply in_or_app; auto).
    assert (Hidx : In idx (box dims)) by (rewrite Hbox; apply in_or_app; right; left; auto).
    assert (Hni : ~ In idx done).
    { pose proof (box_NoDup dims) as N. rewrite Hbox in N. apply NoDup_remove_2 in N.
      intros K. apply N. apply in_or_app; auto. }
    split.
    + intros j Hj. apply in_app_iff in Hj as [Hj|[<-|[]]]; auto.
      rewrite Eo; auto. right. intros E'. apply Hg in E'; auto. subst. auto.
    + intros z k Hz K. rewrite Eo; auto.
      * apply H2; auto. destruct K as [K|K]; auto. right. intros j Hj. apply K. apply in_or_app; auto.
      * destruct K as [K|K]; auto. right. apply K. apply in_or_app. right. left. auto.
  - split; [intros j []|auto].
Qed.

Lemma dot_run I fmac fma x y res n incx incy i N X Y (st : store) :
  (forall a b c, I fmac [a; b; c] = Some (fma a b c)) ->
  x <> res -> y <> res -> x <> i -> y <> i -> res <> i ->
  (forall z, In z (atoms n ++ atoms incx ++ atoms incy) -> z <> i /\ z <> res) ->
  eval (env_of st) n = Some N -> eval (env_of st) incx = Some X -> eval (env_of st) incy = Some Y ->
  exists st', run I (expand_dot fmac x y res n incx incy i) st ONorm st' /\
    st' res [] = fold_left (fun acc v => fma (st x [v * X]) (st y [v * Y]) acc) (zrange N) (st res []) /\
    (forall z k, z <> i -> (z <> res \/ k <> []) -> st' z k = st z k).
Proof.
  intros HI Hx Hy Hxi Hyi Hri Ha En Ex Ey.
  destruct (accum_run I
    [{| o_code := fmac; o_ins := [ORead x [smul (ESym i) incx]; ORead y [smul (ESym i) incy]; ORead res []]; o_out := res; o_sub := [] |}]
    i n N res (fun v acc => fma (st x [v * X]) (st y [v * Y]) acc) st) as (st' & R & V & F); auto.
  - intros z Hz. apply Ha. apply in_app_iff. auto.
  - intros s v Hv Fr Hi. cbn [exec_block]. unfold exec_op. cbn [o_ins o_code o_out o_sub reads_in read_in evals].
    assert (E : forall e u, eval (env_of st) e = Some u -> (forall z, In z (atoms e) -> z <> i /\ z <> res) -> eval (env_of s) e = Some u).
    { intros e u Eu Hz. rewrite <- Eu. apply eval_eqx with (D := fun z => z = i \/ z = res).
      - intros z Hn k. apply Fr; [intros ->; auto|left; intros ->; auto].
      - intros z Hn [->| ->]; destruct (Hz _ Hn); auto. }
    assert (Ei : eval (env_of s) (ESym i) = Some v) by (cbn; unfold env_of; rewrite Hi; auto).
    rewrite (eval_mul _ _ _ v X Ei), (eval_mul _ _ _ v Y Ei).
    + rewrite HI. rewrite (Fr x) by auto. rewrite (Fr y) by auto. reflexivity.
    + apply E; auto. intros z Hz. apply Ha. rewrite !in_app_iff. auto.
    + apply E; auto. intros z Hz. apply Ha. rewrite !in_app_iff. auto.
  - exists st'. split; [apply R_seq; auto|auto].
Qed.

Definition factor_val (st : store) (a : earg) : Z := earg_val st [] a.

Lemma gemm_run I fmac fma mulc mul addc add zc A B Cin Cout alpha beta m n k lda ldb ldc v M N K LA LB LC (st : store) :
  (forall a, I 0%nat [a] = Some a) -> (forall a b c, I fmac [a; b; c] = Some (fma a b c)) ->
  (forall a b, I mulc [a; b] = Some (mul a b)) -> (forall a b, I addc [a; b] = Some (add a b)) ->
  let hid := [g_i v; g_j v; g_k v; g_sum v; g_ts v; g_ti v] in
  NoDup hid ->
  (forall z, In z (b_mem A :: b_mem B :: b_mem Cin :: b_mem Cout :: earg_names alpha ++ earg_names beta ++
     base_names A ++ base_names B ++ base_names Cin ++ base_names Cout) -> ~ In z hid) ->
  ~ In (b_mem Cout) (b_mem A :: b_mem B :: earg_names alpha ++ earg_names beta ++
     base_names A ++ base_names B ++ base_names Cin ++ base_names Cout) ->
  (b_mem Cin = b_mem Cout -> b_ref Cin = b_ref Cout) ->
  (forall a, In a [alpha; beta] -> match a with ATensor _ => False | _ => True end) ->
  (forall e z, In e [m; n; k; lda; ldb; ldc] -> In z (atoms e) -> z <> b_mem Cout /\ ~ In z hid) ->
  evals (env_of st) [m; n; k; lda; ldb; ldc] = Some [M; N; K; LA; LB; LC] -> N <= LC ->
  exists st', runs I (nest (maps [g_i v; g_j v] [m; n]) (gemm_body fmac mulc addc zc A B Cin Cout alpha beta k lda ldb ldc v)) st ONorm st' /\
    scattered hid (b_mem Cout) (fun j => match j with [a; b] => [base_val st Cout + (LC * a + b)] | _ => [] end)
      (fun j => match j with [a; b] =>
         add (mul (fold_left (fun s c => fma (st (b_mem A) [base_val st A + (LA * a + c)]) (st (b_mem B) [base_val st B + (LB * c + b)]) s) (zrange K) zc) (factor_val st alpha))
             (mul (st (b_mem Cin) [base_val st Cin + (LC * a + b)]) (factor_val st beta)) | _ => 0 end)
      st (box [M; N]) st'.
Proof.
  intros H0 HF HM HA hid Hnd Hpub Hout Href Hsc Hat Ev HLC.
  destruct A as [A ra]. destruct B as [B rb]. destruct Cin as [Cin ri]. destruct Cout as [Cout ro]. cbn [b_mem b_ref] in *.
  set (bA := {| b_mem := A; b_ref := ra |}) in *. set (bB := {| b_mem := B; b_ref := rb |}) in *.
  set (bI := {| b_mem := Cin; b_ref := ri |}) in *. set (bO := {| b_mem := Cout; b_ref := ro |}) in *.
  cbn [evals] in Ev.
  destruct (eval (env_of st) m) as [m'|] eqn:Em; [|discriminate]. destruct (eval (env_of st) n) as [n'|] eqn:En; [|discriminate].
  destruct (eval (env_of st) k) as [k'|] eqn:Ek; [|discriminate]. destruct (eval (env_of st) lda) as [a'|] eqn:Ea; [|discriminate].
  destruct (eval (env_of st) ldb) as [b'|] eqn:Eb; [|discriminate]. destruct (eval (env_of st) ldc) as [c'|] eqn:Ec; [|discriminate].
  injection Ev as -> -> -> -> -> ->.
  assert (Ndist : g_i v <> g_j v /\ g_i v <> g_k v /\ g_i v <> g_sum v /\ g_i v <> g_ts v /\ g_i v <> g_ti v /\ g_j v <> g_k v /\
    g_j v <> g_sum v /\ g_j v <> g_ts v /\ g_j v <> g_ti v /\ g_k v <> g_sum v /\ g_k v <> g_ts v /\ g_k v <> g_ti v /\ g_sum v <> g_ts v /\
    g_sum v <> g_ti v /\ g_ts v <> g_ti v).
  { clear -Hnd. unfold hid in Hnd. repeat (apply NoDup_cons_iff in Hnd as [? Hnd]). cbn [In] in *. intuition congruence. }
  destruct Ndist as (P1 & P2 & P3 & P4 & P5 & P6 & P7 & P8 & P9 & P10 & P11 & P12 & P13 & P14 & P15).
  assert (Hh : forall z, ~ In z hid -> z <> g_i v /\ z <> g_j v /\ z <> g_k v /\ z <> g_sum v /\ z <> g_ts v /\ z <> g_ti v).
  { intros z Hz. unfold hid in Hz. cbn [In] in Hz. clear -Hz. intuition congruence. }
  assert (PA : ~ In A hid) by (apply Hpub; left; auto). assert (PB : ~ In B hid) by (apply Hpub; right; left; auto).
  assert (PCi : ~ In Cin hid) by (apply Hpub; right; right; left; auto).
  assert (PCo : ~ In Cout hid) by (apply Hpub; right; right; right; left; auto).
  assert (Pal0 : forall z, In z (earg_names alpha ++ earg_names beta ++ base_names bA ++ base_names bB ++ base_names bI ++ base_names bO) ->
    ~ In z hid) by (intros z Hz; apply Hpub; right; right; right; right; auto).
  assert (Pal : forall z, In z (earg_names alpha ++ earg_names beta) -> ~ In z hid).
  { intros z Hz. apply Pal0. rewrite !in_app_iff in *. tauto. }
  assert (OA : A <> Cout) by (intros ->; apply Hout; left; auto). assert (OB : B <> Cout) by (intros ->; apply Hout; right; left; auto).
  assert (Oal : forall z, In z (earg_names alpha ++ earg_names beta) -> z <> Cout).
  { intros z Hz ->; apply Hout; right; right. rewrite !in_app_iff in *. tauto. }
  assert (Bok : forall (s : store) q, In q [bA; bB; bI; bO] -> (forall z i, ~ In z hid -> z <> Cout -> s z i = st z i) ->
    forall e u, eval (env_of s) e = Some u -> eval (env_of s) (at_base q e) = Some (base_val st q + u)).
  { intros s q Hq Hs e u Eu. unfold at_base, base_val. destruct (b_ref q) as [r|] eqn:Er; [|auto].
    apply eval_plus; auto. cbn. unfold env_of. f_equal. 
    assert (Hr : In r (base_names bA ++ base_names bB ++ base_names bI ++ base_names bO)).
    { assert (In r (base_names q)) by (unfold base_names; rewrite Er; left; auto).
      rewrite !in_app_iff. destruct Hq as [<-|[<-|[<-|[<-|[]]]]]; auto. }
    apply Hs; [apply Pal0|intros ->; apply Hout; right; right]; rewrite !in_app_iff in *; tauto. }
  assert (Eq : forall (s : store), (forall z i, ~ In z hid -> z <> Cout -> s z i = st z i) ->
    forall e u, In e [m; n; k; lda; ldb; ldc] -> eval (env_of st) e = Some u -> eval (env_of s) e = Some u).
  { intros s Hs e u He Eu. rewrite <- Eu. apply eval_eqx with (D := fun z => z = Cout \/ In z hid).
    - intros z Hz i. apply Hs; [intros K1; apply Hz; auto|intros ->; apply Hz; auto].
    - intros z Hz K1. destruct (Hat e z He Hz) as [K2 K3]. destruct K1; auto. }
  apply scatter_body.
  - cbn. constructor; [cbn; intuition congruence|]. constructor; [intros []|constructor].
  - intros z [<-|[<-|[]]]; unfold hid; cbn; auto.
  - auto.
  - cbn. repeat constructor; auto.
  - intros e z He Hz. cbn in He. destruct He as [<-|[<-|[]]]; cbn in Hz.
    + apply (Hat m z); cbn; auto.
    + apply (Hat n z); cbn; auto.
  - intros j j' Hj Hj' E. apply box_In in Hj, Hj'.
    inversion Hj as [|? a ? r Ha Hr]; subst. inversion Hr as [|? b ? r2 Hb Hr2]; subst. inversion Hr2; subst.
    inversion Hj' as [|? p ? r' Hp Hr']; subst. inversion Hr' as [|? q ? r2' Hq Hr2']; subst. inversion Hr2'; subst.
    injection E as E. assert (a = p) by nia. subst p. f_equal. f_equal. lia.
  - intros done idx rest s Hbox [S1 S2] Hv.
    destruct (box_split_fresh _ _ _ _ Hbox) as [Hni Hin]. apply box_In in Hin.
    inversion Hin as [|? a ? r Ha Hr]; subst. inversion Hr as [|? b ? r2 Hb Hr2]; subst. inversion Hr2; subst. clear Hr Hr2.
    cbn in Hv. inversion Hv as [|? ? ? ? Hi Hv2]; subst. inversion Hv2 as [|? ? ? ? Hj _]; subst. clear Hv Hv2.
    set (a := s (g_i v) []) in *. set (b := s (g_j v) []) in *.
    assert (Sfr : forall z i, ~ In z hid -> z <> Cout -> s z i = st z i) by (intros z i Hz Hc; apply S2; auto).
    (* C[ldc*a+b] not yet written *)
    assert (Scin : s Cin [base_val st bI + (LC * a + b)] = st Cin [base_val st bI + (LC * a + b)]).
    { destruct (string_dec Cin Cout) as [Heq|Hne]; [|apply S2; auto].
      assert (Hbv : base_val st bI = base_val st bO) by (unfold base_val; cbn; rewrite (Href Heq); auto).
      rewrite Hbv. apply S2; auto. right. intros j Hj. assert (Hjb : In j (box [M; N])) by (rewrite Hbox; apply in_or_app; auto).
      apply box_In in Hjb. inversion Hjb as [|? p ? r' Hp Hr']; subst. inversion Hr' as [|? q ? r2' Hq Hr2']; subst. inversion Hr2'; subst.
      intros E. injection E as E. assert (a = p) by nia. subst p. assert (b = q) by lia. subst q. auto. }
    set (s1 := wr s (g_sum v) [] zc).
    assert (F1 : forall z i, z <> g_sum v -> s1 z i = s z i) by (intros z i Hz; unfold s1; apply IRFacts.wr_other; left; auto).
    destruct (accum_run I
      [{| o_code := fmac; o_ins := [ORead A [at_base bA (sadd (smul lda (ESym (g_i v))) (ESym (g_k v)))]; ORead B [at_base bB (sadd (smul ldb (ESym (g_k v))) (ESym (g_j v)))]; ORead (g_sum v) []];
          o_out := g_sum v; o_sub := [] |}]
      (g_k v) k K (g_sum v) (fun c acc => fma (st A [base_val st bA + (LA * a + c)]) (st B [base_val st bB + (LB * c + b)]) acc) s1) as (s2 & R2 & V2 & F2).
    + auto.
    + apply (Eq s1); auto; [|cbn; auto]. intros z i Hz Hc. rewrite F1; auto. intros ->. apply Hz. unfold hid; cbn; auto.
    + intros z Hz. destruct (Hat k z) as [_ K2]; cbn; auto. apply Hh in K2. tauto.
    + intros t c Hc Ft Hk. cbn [exec_block]. unfold exec_op. cbn [o_ins o_code o_out o_sub reads_in read_in evals].
      assert (Ft2 : forall z i, ~ In z hid -> z <> Cout -> t z i = st z i).
      { intros z i Hz Hzc. destruct (Hh z Hz) as (_ & _ & K3 & K4 & _). rewrite Ft; auto. rewrite F1; auto. }
      assert (Ti : eval (env_of t) (ESym (g_i v)) = Some a).
      { cbn. unfold env_of. rewrite Ft; auto. rewrite F1; auto. }
      assert (Tj : eval (env_of t) (ESym (g_j v)) = Some b).
      { cbn. unfold env_of. rewrite Ft; auto. rewrite F1; auto. }
      assert (Tk : eval (env_of t) (ESym (g_k v)) = Some c) by (cbn; unfold env_of; rewrite Hk; auto).
      assert (Ta := Eq t Ft2 lda LA ltac:(cbn; auto) Ea). assert (Tb := Eq t Ft2 ldb LB ltac:(cbn; auto 6) Eb).
      rewrite (Bok t bA ltac:(cbn; auto) Ft2 _ _ (eval_plus _ _ _ _ _ (eval_mul _ _ _ _ _ Ta Ti) Tk)),
        (Bok t bB ltac:(cbn; auto) Ft2 _ _ (eval_plus _ _ _ _ _ (eval_mul _ _ _ _ _ Tb Tk) Tj)).
      rewrite HF. rewrite (Ft2 A), (Ft2 B); auto.
    + assert (Fz : forall z i, ~ In z hid -> s2 z i = s z i).
      { intros z i Hz. destruct (Hh z Hz) as (_ & _ & K3 & K4 & _). rewrite F2; auto. }
      assert (Fz2 : forall z i, ~ In z hid -> z <> Cout -> s2 z i = st z i) by (intros; rewrite Fz; auto).
      set (sum := fold_left (fun s c => fma (st A [base_val st bA + (LA * a + c)]) (st B [base_val st bB + (LB * c + b)]) s) (zrange K) zc).
      assert (V2' : s2 (g_sum v) [] = sum).
      { rewrite V2. unfold s1 at 1. rewrite wr_same. reflexivity. }
      set (u := mul sum (factor_val st alpha)). set (w := mul (st Cin [base_val st bI + (LC * a + b)]) (factor_val st beta)).
      set (s3 := wr s2 (g_ts v) [] u). set (s4 := wr s3 (g_ti v) [] w). set (s5 := wr s4 Cout [base_val st bO + (LC * a + b)] (add u w)).
      assert (Rf : forall (t : store) f, In f [alpha; beta] -> (forall z i, ~ In z hid -> z <> Cout -> t z i = st z i) ->
         read_in t (factor_in f) = Some (factor_val st f)).
      { intros t f Hf Ht. specialize (Hsc f Hf). destruct f as [x|x|z]; [contradiction| |reflexivity].
        cbn. f_equal. apply Ht.
        - apply Pal. apply in_app_iff. destruct Hf as [->|[->|[]]]; cbn; auto.
        - apply Oal. apply in_app_iff. destruct Hf as [->|[->|[]]]; cbn; auto. }
      assert (Ts : g_ts v <> Cout /\ g_ti v <> Cout /\ g_sum v <> Cout).
      { destruct (Hh Cout PCo) as (_ & _ & _ & K4 & K5 & K6). auto. }
      assert (F3 : forall z i, z <> g_ts v -> s3 z i = s2 z i) by (intros z i Hz; unfold s3; apply IRFacts.wr_other; left; auto).
      assert (F4 : forall z i, z <> g_ti v -> s4 z i = s3 z i) by (intros z i Hz; unfold s4; apply IRFacts.wr_other; left; auto).
      assert (Ix : forall (t : store) q, In q [bA; bB; bI; bO] -> t (g_i v) [] = a -> t (g_j v) [] = b -> (forall z i, ~ In z hid -> z <> Cout -> t z i = st z i) ->
         evals (env_of t) [at_base q (sadd (smul ldc (ESym (g_i v))) (ESym (g_j v)))] = Some [base_val st q + (LC * a + b)]).
      { intros t q Hq T1 T2 T3. cbn [evals].
        assert (Ti : eval (env_of t) (ESym (g_i v)) = Some a) by (cbn; unfold env_of; rewrite T1; auto).
        assert (Tj : eval (env_of t) (ESym (g_j v)) = Some b) by (cbn; unfold env_of; rewrite T2; auto).
        assert (Tc := Eq t T3 ldc LC ltac:(cbn; auto 8) Ec).
        rewrite (Bok t q Hq T3 _ _ (eval_plus _ _ _ _ _ (eval_mul _ _ _ _ _ Tc Ti) Tj)). auto. }
      assert (I2 : s2 (g_i v) [] = a) by (rewrite F2; auto; rewrite F1; auto).
      assert (J2 : s2 (g_j v) [] = b) by (rewrite F2; auto; rewrite F1; auto).
      assert (Fz3 : forall z i, ~ In z hid -> z <> Cout -> s3 z i = st z i).
      { intros z i Hz Hc. destruct (Hh z Hz) as (_ & _ & _ & _ & K5 & _). rewrite F3; auto. }
      assert (Fz4 : forall z i, ~ In z hid -> z <> Cout -> s4 z i = st z i).
      { intros z i Hz Hc. destruct (Hh z Hz) as (_ & _ & _ & _ & _ & K6). rewrite F4; auto. }
      assert (Cr : s3 Cin [base_val st bI + (LC * a + b)] = st Cin [base_val st bI + (LC * a + b)]).
      { destruct (Hh Cin PCi) as (_ & _ & _ & _ & K5 & _). rewrite F3; auto. rewrite Fz; auto. }
      exists s5. split; [|split; [|split]].
      * unfold gemm_body.
        apply R_cons with (st1 := s1) (st2 := s1); [apply R_block|reflexivity|].
        { cbn [exec_block]. unfold exec_op. cbn [o_ins o_code o_out o_sub reads_in read_in evals]. rewrite H0. reflexivity. }
        eapply runs_sapp; [exact R2|].
        apply R_cons with (st1 := s5) (st2 := s5); [apply R_block|reflexivity|apply R_nil].
        cbn [exec_block]. unfold exec_op at 1. cbn [o_ins o_code o_out o_sub]. cbn [reads_in].
        rewrite (Rf s2 alpha) by (cbn; auto). cbn [read_in evals]. rewrite V2', HM. fold u. fold s3.
        unfold exec_op at 1. cbn [o_ins o_code o_out o_sub]. cbn [reads_in].
        rewrite (Rf s3 beta) by (cbn; auto). cbn [read_in]. rewrite (Ix s3 bI); [|cbn; auto| | |auto].
        2: { rewrite F3; auto. } 2: { rewrite F3; auto. }
        cbn [b_mem bI]. rewrite Cr, HM. fold w. cbn [evals]. fold s4.
        unfold exec_op at 1. cbn [o_ins o_code o_out o_sub reads_in read_in evals].
        assert (X1 : s4 (g_ts v) [] = u) by (rewrite F4 by auto; unfold s3; apply wr_same).
        assert (X2 : s4 (g_ti v) [] = w) by (unfold s4; apply wr_same).
        rewrite X1, X2, HA. pose proof (Ix s4 bO) as Ix4. cbn [evals] in Ix4.
        rewrite Ix4; [reflexivity|cbn; auto 6| | |auto]; rewrite F4, F3; auto.
      * unfold s5. rewrite wr_same. reflexivity.
      * intros z i Hz K1. destruct (Hh z Hz) as (_ & _ & K3 & K4 & K5 & K6).
        unfold s5. rewrite IRFacts.wr_other by (destruct K1; auto). rewrite F4, F3, Fz; auto.
      * intros z Hz. cbn in Hz. assert (Hzz : z <> Cout /\ z <> g_ts v /\ z <> g_ti v /\ z <> g_k v /\ z <> g_sum v).
        { destruct (Hh Cout PCo) as (K1 & K2 & _). destruct Hz as [<-|[<-|[]]]; auto 6. }
        destruct Hzz as (K1 & K2 & K3 & K4 & K5).
        unfold s5. rewrite IRFacts.wr_other by auto. rewrite F4, F3, F2, F1; auto.
Qed.
