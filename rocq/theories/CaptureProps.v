(** Properties of name generation, base64 and argument capture (C26, C32, C33).

    Specification side: [captured] (CaptureProofs2.v) says what the index file of one
    invocation must contain; [last_call], [last_arg]: the latest capture of a key. *)
From Coq Require Import Lia Permutation.
From Verif Require Import Base64 Base64Proofs Capture StrFacts Names CaptureProofs CaptureProofs2.
Local Open Scope string_scope.
Local Open Scope Z_scope.

(* ======================= C26 ======================= *)
(** A new name always exists, is not the name of a container, and is the first
    free one of prefix0, prefix1, ... *)
Theorem C26_fresh : forall (names : list string) (prefix : string) (fuel : nat), (List.length names < fuel)%nat ->
  exists i, find_new_name fuel names prefix = Some (prefix ++ to_string_u (N.of_nat i)) /\
    ~ In (prefix ++ to_string_u (N.of_nat i)) names /\
    (forall j, (j < i)%nat -> In (prefix ++ to_string_u (N.of_nat j)) names).
Proof.
  intros names p fuel L. destruct (find_new_name fuel names p) as [r|] eqn:E; [|elim (find_total names p fuel L E)].
  destruct (loop_spec names p fuel 0 r E) as (i & _ & R & N & A). exists i. subst r. split; [reflexivity|]. split; [exact N|].
  intros j Hj. apply A. lia.
Qed.
(** Different counters give different names. *)
Theorem C26_distinct : forall (prefix : string) (i j : N), prefix ++ to_string_u i = prefix ++ to_string_u j -> i = j.
Proof. intros p i j H. apply sapp_inj_l, to_string_u_inj in H. exact H. Qed.
Example C26_nonvacuous : find_new_name 4 ["tmp_0"; "x"; "tmp_1"] "tmp_" = Some "tmp_2".
Proof. reflexivity. Qed.

(* ======================= C32 ======================= *)
(** Decoding an encoding gives the bytes back (up to 1610612733 bytes, where the
    encoding reaches 2^31 characters and the decoder's int counter overflows). *)
Theorem C32_roundtrip : forall bs : list Z, Forall byte bs -> Z.of_nat (List.length bs) <= 1610612733 ->
  base64_decode (base64_encode bs) = Some bs.
Proof. intros bs F L. apply b64_roundtrip; [exact F|]. change (2 ^ 31) with 2147483648. lia. Qed.
(** The encoding has four characters per started group of three bytes, all from
    the alphabet, followed by at most two '='. *)
Theorem C32_format : forall bs : list Z, Forall byte bs -> Z.of_nat (List.length bs) < 2 ^ 32 ->
  Z.of_nat (List.length (base64_encode bs)) = 4 * ((Z.of_nat (List.length bs) + 2) / 3) /\
  exists body pad, base64_encode bs = (body ++ repeat 61 pad)%list /\ (pad <= 2)%nat /\ Forall (fun c => In c base64_chars) body.
Proof.
  intros bs F L. unfold base64_encode. apply Z.ltb_lt in L. rewrite L. split; [apply enc_length|].
  destruct (enc_chars_ok bs F) as (body & pad & E & P & B). exists body, pad. split; [exact E|]. split; [exact P|].
  eapply Forall_impl; [|exact B]. intros c H.
  assert (0 <= c < Z.of_nat 256) as R by (unfold is_base64 in H; rewrite !orb_true_iff, !andb_true_iff, !Z.leb_le, !Z.eqb_eq in H; lia).
  assert (S: (implb (is_base64 c) (existsb (Z.eqb c) base64_chars)) = true).
  { revert c R H. intros c R _. revert c R. apply (sweep (fun c => implb (is_base64 c) (existsb (Z.eqb c) base64_chars)) 256). vm_compute. reflexivity. }
  rewrite H in S. cbn [implb] in S. apply existsb_exists in S as (x & I & E'). apply Z.eqb_eq in E'. subst. exact I.
Qed.
(** Three bytes become the four base-64 digits (most significant first) of the
    24-bit big-endian number. *)
Theorem C32_groups : forall a b c rest, byte a -> byte b -> byte c -> Z.of_nat (List.length rest) + 3 < 2 ^ 32 ->
  exists w x y z, base64_encode (a :: b :: c :: rest) = (map (fun k => nth (Z.to_nat k) base64_chars 0%Z) [w; x; y; z] ++ base64_encode rest)%list /\
    0 <= w < 64 /\ 0 <= x < 64 /\ 0 <= y < 64 /\ 0 <= z < 64 /\ ((w * 64 + x) * 64 + y) * 64 + z = (a * 256 + b) * 256 + c.
Proof.
  intros a b c rest A B C L. destruct (enc4_digits a b c A B C) as (w & x & y & z & E & R).
  exists w, x, y, z. split; [|exact R]. unfold base64_encode.
  replace (Z.of_nat (List.length (a :: b :: c :: rest)) <? 2 ^ 32) with true by (symmetry; apply Z.ltb_lt; cbn [List.length]; lia).
  replace (Z.of_nat (List.length rest) <? 2 ^ 32) with true by (symmetry; apply Z.ltb_lt; lia).
  cbn [enc_loop app]. rewrite E. reflexivity.
Qed.
(** Whatever text it is given, the decoder yields bytes. *)
Theorem C32_decode_bytes : forall s bs, base64_decode s = Some bs -> Forall byte bs.
Proof. intros s bs. unfold base64_decode. destruct (_ <? _); [|discriminate]. intros [= <-]. apply dec_bytes. Qed.
Example C32_nonvacuous : base64_encode [77; 97; 110; 255] = chars_of "TWFu/w==" /\ base64_decode (chars_of "TWFu/w==") = Some [77; 97; 110; 255].
Proof. split; reflexivity. Qed.

(* ======================= C33 ======================= *)
(** Any history of inline captures of one region, written and parsed back (in
    whatever order the hash map is iterated): every key holds its last capture. *)
Theorem C33_inline_history : forall (ord : cmap -> cmap), (forall m, Permutation (ord m) m) ->
  forall (name e : string) (dir : list string) (calls : list icall),
  Forall icall_ok calls -> calls <> [] ->
  exists o f m, inlines e calls (invocation (new_io name) e) = Some o /\
    write_index ord o dir (fun _ => None) = Some f /\
    from_index f (dir, index_file name 0 e) = Some {| i_name := name; i_inv := [(e, 0)]; i_caps := [(e, m)] |} /\
    forall i aft, cm_get m (i, aft) =
      match last_call calls (i, aft) with
      | Some c => Some {| c_idx := k_idx c; c_after := k_after c; c_dims := k_dims c; c_prim := k_prim c; c_ext := None;
                          c_data := Some (bytes (k_mem c) (fold_left Z.mul (k_dims c) 1)) |}
      | None => None
      end.
Proof.
  intros ord Hord name e dir calls F N.
  destruct (inlines_ok dir e calls (invocation (new_io name) e) F) as (m & [E|(Q & _)] & W & G); [split; constructor| |contradiction].
  eexists. eexists. destruct (index_roundtrip ord Hord (fwrite (fun _ => None) (dir, index_file name 0 e) (FJson (index_json ord name 0 e m))) dir name 0 e m W (fwrite_same _ _ _)) as (m' & R & G').
  exists m'. split; [exact E|]. split.
  - unfold write_index, with_caps, invocation, new_io, sset. cbn [i_caps i_inv i_name sget filter write_regions].
    rewrite String.eqb_refl. reflexivity.
  - split; [exact R|]. intros i aft. rewrite G', G. destruct (last_call calls (i, aft)); reflexivity.
Qed.
(** Any history of executions of instrumented regions through the runtime: no
    exception, and for every region and every invocation number the strategy
    selects, the index parses and describes exactly that execution's arguments;
    for others nothing is written. (Counters are 32 bits: up to 2^32 executions of
    that region.) *)
Theorem C33_runtime_history : forall (ord : cmap -> cmap), (forall m, Permutation (ord m) m) ->
  forall (which : Z) (dir : list string) (name : string) (h : list exec), Forall exec_ok h ->
  exists o f, run_execs ord which dir h (new_io name) (fun _ => None) = Some (o, f) /\
   forall e : N, Z.of_nat (List.length (execs_of e h)) <= 2 ^ 32 ->
     (forall k x, nth_error (execs_of e h) k = Some x -> chosen which k = true -> (x_in x ++ x_out x <> [])%list ->
        captured f name dir (to_string_u e) (Z.of_nat k) x) /\
     (forall k, chosen which k = false \/ (List.length (execs_of e h) <= k)%nat -> Z.of_nat k < 2 ^ 32 ->
        f (dir, index_file name (Z.of_nat k) (to_string_u e)) = None /\
        forall i a, f (dir, arg_file name (Z.of_nat k) i a (to_string_u e)) = None).
Proof.
  intros ord Hord which dir name h F. destruct (history_ok ord Hord which dir name h F) as (o & f & E & _ & _ & H).
  exists o, f. split; [exact E|exact H].
Qed.
(** The default strategy captures the first execution only, "all" captures all,
    "never" has no context. *)
Theorem C33_strategies : strategy None = Some 0 /\ strategy (Some "once") = Some 0 /\ strategy (Some "never") = None /\
  (forall k, chosen 0 k = Nat.eqb k 0) /\ (exists w, strategy (Some "all") = Some w /\ forall k, chosen w k = true).
Proof.
  split; [reflexivity|]. split; [reflexivity|]. split; [reflexivity|]. split.
  - intros [|k]; reflexivity.
  - exists ALL_INVOCATIONS. split; reflexivity.
Qed.
(** Beyond 2^32 executions the counter wraps and the first capture is
    overwritten: the claim without the bound is false. *)
Definition argm (v : Z) : arg := {| g_idx := 0; g_size := 1; g_prim := 1; g_mem := fun _ => v |}.
Definition exm (v : Z) : exec := {| x_elem := 7; x_in := [argm v]; x_out := [] |}.
Lemma execs_repeat v n : execs_of 7 (repeat (exm v) n) = repeat (exm v) n.
Proof. unfold execs_of. induction n; simpl; congruence. Qed.
Theorem C33_counter_wrap_refuted : ~ (forall (ord : cmap -> cmap), (forall m, Permutation (ord m) m) ->
  forall which dir name h, Forall exec_ok h -> exists o f, run_execs ord which dir h (new_io name) (fun _ => None) = Some (o, f) /\
   forall e k x, nth_error (execs_of e h) k = Some x -> chosen which k = true -> (x_in x ++ x_out x <> [])%list ->
        captured f name dir (to_string_u e) (Z.of_nat k) x).
Proof.
  intros H. set (n := Z.to_nat (2 ^ 32)). set (h0 := repeat (exm 0) n).
  assert (O: forall v, exec_ok (exm v)). { intros v. split; repeat constructor; cbv; congruence. }
  assert (F0: Forall exec_ok h0). { apply Forall_forall. intros x I. apply repeat_spec in I. subst x. apply O. }
  destruct (H (fun m => m) (fun m => Permutation_refl m) 0 ["d"] "t" (h0 ++ [exm 1])%list) as (o & f & E & C).
  { apply Forall_app. split; [exact F0|]. constructor; [apply O|constructor]. }
  assert (Hid: forall m : cmap, Permutation m m) by (intros; apply Permutation_refl).
  destruct (history_ok (fun m => m) Hid 0 ["d"] "t" h0 F0) as (o0 & f0 & E0 & N0 & I0 & _).
  rewrite run_execs_app, E0 in E. cbn [obind fst snd] in E.
  destruct (run_exec_ok (fun m => m) Hid 0 ["d"] (exm 1) o0 f0 (O 1)) as (o1 & f1 & E1 & _ & _ & _ & _ & CC).
  rewrite E1 in E. injection E as -> ->.
  assert (K: next o0 (to_string_u (x_elem (exm 1))) = 0).
  { unfold next. specialize (I0 7%N). cbn [x_elem exm]. rewrite I0. unfold h0. rewrite execs_repeat, repeat_length.
    replace (Nat.eqb n 0) with false by (symmetry; apply Nat.eqb_neq; unfold n; lia).
    unfold n. rewrite Z2Nat.id by lia. reflexivity. }
  rewrite K, N0 in CC. destruct (CC eq_refl ltac:(discriminate)) as (m1 & Em1 & G1).
  specialize (C 7%N 0%nat (exm 0)). destruct C as (m2 & _ & G2); [|reflexivity|discriminate|].
  { rewrite execs_app. unfold h0. rewrite execs_repeat. rewrite nth_error_app1 by (rewrite repeat_length; unfold n; lia).
    destruct n as [|n'] eqn:En; [unfold n in En; lia|reflexivity]. }
  specialize (G1 0 false). specialize (G2 0 false). cbn [x_in exm last_arg g_idx argm] in G1, G2.
  rewrite Z.eqb_refl in G1, G2. destruct G1 as [_ G1], G2 as [_ G2]. cbn [x_elem exm] in G1.
  change (Z.of_nat 0) with 0 in G2. rewrite G1 in G2. discriminate G2.
Qed.
(** The inline byte count is accumulated in an int: a 4 GiB array is stored as
    zero bytes. *)
Theorem C33_inline_size_refuted : exists (d : mem) (o : io) (c : cap),
  create_and_capture_inline (new_io "t") 0 false 1 [4; 1073741824] d "r" = Some o /\
  cm_get (caps_of o "r") (0, false) = Some c /\ c_data c = Some [] /\ fold_left Z.mul (c_dims c) 1 = 2 ^ 32.
Proof. exists (fun _ => 0). do 2 eexists. repeat split. Qed.
Definition c33_calls : list icall :=
  [{| k_idx := 3; k_after := true; k_prim := 5; k_dims := [4; 2]; k_mem := fun a => a mod 256 |};
   {| k_idx := 3; k_after := true; k_prim := 5; k_dims := [4; 1]; k_mem := fun a => 255 - a mod 256 |}].
Example C33_nonvacuous : Forall icall_ok c33_calls /\ Forall exec_ok [exm 3; exm 4] /\
  (forall c, last_call c33_calls (3, true) = Some c -> bytes (k_mem c) (fold_left Z.mul (k_dims c) 1) = [255; 254; 253; 252]).
Proof.
  split; [|split].
  - repeat constructor; try (cbn; lia); cbn [k_mem k_dims]; unfold byte in *; pose proof (Z.mod_pos_bound a 256); lia.
  - repeat constructor; cbn; lia.
  - intros c [= <-]. reflexivity.
Qed.
