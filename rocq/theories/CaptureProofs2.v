From Coq Require Import Lia Permutation ZifyBool ZifyNat.
From Verif Require Import Base64 Base64Proofs Capture StrFacts CaptureProofs.
Local Open Scope string_scope.
Local Open Scope Z_scope.

(** The last captured argument with a given index. *)
Fixpoint last_arg (l : list arg) (i : Z) : option arg :=
  match l with
  | [] => None
  | g :: r => match last_arg r i with Some x => Some x | None => if g_idx g =? i then Some g else None end
  end.
(** The index file of invocation [k] of region [e] parses, and holds for every
    argument index and direction the last capture made of it (type, size and a
    data file with exactly the captured bytes), and nothing else. *)
Definition captured (f : fs) (name : string) (dir : list string) (e : string) (k : Z) (x : exec) : Prop :=
  exists m, from_index f (dir, index_file name k e) = Some {| i_name := name; i_inv := [(e, k)]; i_caps := [(e, m)] |} /\
  forall i aft, match last_arg (if aft : bool then x_out x else x_in x) i with
    | Some g => let p := (dir, arg_file name k i aft e) in
                cm_get m (i, aft) = Some {| c_idx := i; c_after := aft; c_dims := [g_size g]; c_prim := g_prim g; c_ext := Some p; c_data := None |} /\
                f p = Some (FRaw (bytes (g_mem g) (g_size g)))
    | None => cm_get m (i, aft) = None
    end.
Definition arg_ok (g : arg) : Prop := 0 <= g_size g < 2 ^ 64.
Definition exec_ok (x : exec) : Prop := Forall arg_ok (x_in x) /\ Forall arg_ok (x_out x).
(** The executions of region [e] in a history, in order *)
Definition execs_of (e : N) (h : list exec) : list exec := filter (fun x => N.eqb (x_elem x) e) h.
Definition chosen (which : Z) (k : nat) : bool := (which =? ALL_INVOCATIONS) || (Z.of_nat k =? which).

Definition fcap dir name k aft e (g : arg) : cap :=
  final_cap (g_idx g) aft (g_prim g) [g_size g] None (Some (dir, arg_file name k (g_idx g) aft e)).

Lemma capture_raw_ok dir o f e k aft g : arg_ok g -> sget (i_inv o) e = Some k -> wf_cmap dir (caps_of o e) ->
  exists m, capture_raw dir o f (g_idx g) (g_mem g) (g_size g) (g_prim g) aft e =
      Some (with_caps o e m, fwrite f (dir, arg_file (i_name o) k (g_idx g) aft e) (FRaw (bytes (g_mem g) (g_size g)))) /\
    wf_cmap dir m /\
    forall q, cm_get m q = if key_eqb (g_idx g, aft) q then Some (fcap dir (i_name o) k aft e g) else cm_get (caps_of o e) q.
Proof.
  intros G K W. unfold capture_raw, arg_ok in *. set (q0 := (g_idx g, aft)).
  assert (S: size_sz [g_size g] = g_size g).
  { unfold size_sz. cbn [fold_left]. rewrite Z.mul_1_l. apply Z.mod_small. exact G. }
  set (c := fcap dir (i_name o) k aft e g).
  assert (M: exists m1, (if g_size g <=? 32 then create_and_capture_inline o (g_idx g) aft (g_prim g) [g_size g] (g_mem g) e else Some o)
             = Some m1 /\ i_inv m1 = i_inv o /\ i_name m1 = i_name o /\ (forall m', with_caps m1 e m' = with_caps o e m') /\
             NoDup (map fst (caps_of m1 e)) /\ (forall x, In x (caps_of m1 e) -> fst x <> q0 -> In x (caps_of o e)) /\
             (forall q, q <> q0 -> cm_get (caps_of m1 e) q = cm_get (caps_of o e) q)).
  { destruct (Z.leb_spec (g_size g) 32).
    - assert (P: fold_left Z.mul [g_size g] 1 = g_size g) by (cbn [fold_left]; apply Z.mul_1_l).
      destruct (inline_ok o e (g_idx g) aft (g_prim g) [g_size g] (g_mem g)) as (m1 & E & Em).
      { rewrite P. change (2 ^ 31) with 2147483648. lia. }
      exists (with_caps o e m1). rewrite E. split; [reflexivity|]. split; [reflexivity|]. split; [reflexivity|].
      split; [intros; apply with_with|]. rewrite caps_with. subst m1. fold q0. split; [|split].
      + apply set_keys. unfold cm_emplace. rewrite cm_get_erase. destruct (key_eqb_spec q0 q0); [|congruence].
        simpl. destruct (erase_keys (caps_of o e) q0 (proj1 W)). constructor; auto.
      + intros x [<-|I] N; [elim N; reflexivity|]. apply erase_in in I as [I _]. unfold cm_emplace in I.
        rewrite cm_get_erase in I. destruct (key_eqb_spec q0 q0); [|congruence].
        destruct I as [<-|I]; [elim N; reflexivity|]. apply erase_in in I. tauto.
      + intros q N. unfold q0. rewrite inline_get. fold q0. destruct (key_eqb_spec q0 q); congruence.
    - exists o. repeat split; auto. apply W. }
  destruct M as (m1 & -> & I & Nm & Wc & ND & Sub & Oth). cbn [obind]. rewrite I, K, Nm.
  unfold create_and_capture_to_file. rewrite S, Wc. eexists. split; [reflexivity|]. fold q0. split.
  - apply wf_set; [|reflexivity|reflexivity]. split; [apply erase_keys; exact ND|].
    apply Forall_forall. intros x Ix. apply erase_in in Ix as [Ix Nx].
    destruct W as [_ F]. rewrite Forall_forall in F. apply F. apply Sub; assumption.
  - intros q. rewrite cm_get_set. destruct (key_eqb_spec q0 q) as [->|N]; [reflexivity|].
    rewrite cm_get_erase. destruct (key_eqb_spec q0 q); [congruence|]. apply Oth. congruence.
Qed.

Lemma captures_ok dir e k aft : forall l o f, 0 <= k -> Forall arg_ok l -> sget (i_inv o) e = Some k -> wf_cmap dir (caps_of o e) ->
  exists o' f', captures dir aft e l o f = Some (o', f') /\ i_inv o' = i_inv o /\ i_name o' = i_name o /\
    wf_cmap dir (caps_of o' e) /\ (l = [] -> o' = o) /\ (l <> [] -> o' = with_caps o e (caps_of o' e)) /\
    (forall i a, cm_get (caps_of o' e) (i, a) =
       match (if Bool.eqb a aft then last_arg l i else None) with Some g => Some (fcap dir (i_name o) k aft e g) | None => cm_get (caps_of o e) (i, a) end) /\
    (forall i g, last_arg l i = Some g -> f' (dir, arg_file (i_name o) k i aft e) = Some (FRaw (bytes (g_mem g) (g_size g)))) /\
    (forall p, (forall i, last_arg l i = None \/ p <> (dir, arg_file (i_name o) k i aft e)) -> f' p = f p).
Proof.
  induction l as [|g l IH]; intros o f K F I W.
  - exists o, f. cbn [captures last_arg]. repeat split; auto; try apply W; try congruence.
    intros i a. destruct (Bool.eqb a aft); reflexivity.
  - inversion F as [|? ? G F']; subst. cbn [captures].
    destruct (capture_raw_ok dir o f e k aft g G I W) as (m & E & Wm & Gm). rewrite E. cbn [obind fst snd].
    destruct (IH (with_caps o e m) (fwrite f (dir, arg_file (i_name o) k (g_idx g) aft e) (FRaw (bytes (g_mem g) (g_size g))))) as
      (o' & f' & E' & I' & N' & W' & Z' & S' & G' & B' & R'); [exact K|assumption|exact I|rewrite caps_with; exact Wm|].
    cbn [i_inv i_name with_caps] in I', N', G', B', R'. rewrite caps_with in G'.
    exists o', f'. split; [exact E'|]. split; [exact I'|]. split; [exact N'|]. split; [exact W'|].
    split; [discriminate|]. split; [|split; [|split]].
    + intros _. destruct l as [|g' l']; [rewrite Z' by reflexivity; rewrite caps_with; reflexivity|].
      rewrite S' by discriminate. rewrite with_with, caps_with. reflexivity.
    + intros i a. rewrite G', Gm. cbn [last_arg]. destruct (Bool.eqb a aft) eqn:Ea.
      * apply Bool.eqb_prop in Ea. subst a. destruct (last_arg l i); [reflexivity|].
        unfold key_eqb. cbn [fst snd]. rewrite Bool.eqb_reflx, andb_true_r. destruct (g_idx g =? i); reflexivity.
      * destruct (key_eqb_spec (g_idx g, aft) (i, a)) as [Q|]; [|reflexivity]. injection Q as _ <-.
        rewrite Bool.eqb_reflx in Ea. discriminate.
    + intros i g1 L. cbn [last_arg] in L. destruct (last_arg l i) eqn:L1; [apply B'; congruence|].
      destruct (Z.eqb_spec (g_idx g) i) as [Ei|]; [|discriminate]. injection L as <-. subst i. rewrite R'; [apply fwrite_same|].
      intros j. destruct (Z.eq_dec j (g_idx g)) as [->|N]; [left; exact L1|right].
      intros Q. injection Q as Q. apply arg_file_inj in Q; [|exact K|exact K]. lia.
    + intros p Hp. rewrite R'.
      * apply fwrite_other. destruct (Hp (g_idx g)) as [Q|Q]; [|exact Q]. exfalso. cbn [last_arg] in Q.
        destruct (last_arg l (g_idx g)); [discriminate|]. rewrite Z.eqb_refl in Q. discriminate.
      * intros i. destruct (Hp i) as [Q|Q]; [left|right; exact Q]. cbn [last_arg] in Q. destruct (last_arg l i); [discriminate|reflexivity].
Qed.

Section Ord.
Variable ord : cmap -> cmap.
Hypothesis Hord : forall m, Permutation (ord m) m.

Definition next (o : io) (e : string) : Z := match sget (i_inv o) e with Some n => (n + 1) mod 2 ^ 32 | None => 0 end.
Definition chosenz (which k : Z) : bool := (which =? ALL_INVOCATIONS) || (k =? which).
Lemma next_nonneg o e : 0 <= next o e.
Proof. unfold next. destruct (sget _ _); [|lia]. apply Z.mod_pos_bound. reflexivity. Qed.

Lemma run_exec_ok which dir x o f : exec_ok x ->
  let e := to_string_u (x_elem x) in let k := next o e in
  exists o' f', run_exec ord which dir x o f = Some (o', f') /\ i_name o' = i_name o /\ i_inv o' = sset (i_inv o) e k /\
   (chosenz which k = false -> f' = f) /\
   (forall p, (forall i a, p <> (dir, arg_file (i_name o) k i a e)) -> p <> (dir, index_file (i_name o) k e) -> f' p = f p) /\
   (chosenz which k = true -> (x_in x ++ x_out x <> [])%list -> captured f' (i_name o) dir e k x).
Proof.
  intros [Fi Fo]. cbv zeta. set (e := to_string_u (x_elem x)). set (k := next o e).
  pose proof (next_nonneg o e : 0 <= k) as K.
  unfold run_exec. fold e. unfold enter. set (o1 := invocation (clear o) e).
  assert (I1: i_inv o1 = sset (i_inv o) e k) by reflexivity.
  assert (S1: sget (i_inv o1) e = Some k) by (rewrite I1, sget_sset, String.eqb_refl; reflexivity).
  rewrite S1. fold (chosenz which k). destruct (chosenz which k) eqn:C.
  - assert (W1: wf_cmap dir (caps_of o1 e)) by (split; constructor).
    destruct (captures_ok dir e k false (x_in x) o1 f K Fi S1 W1) as (o2 & f2 & -> & I2 & N2 & W2 & Z2 & SS2 & G2 & B2 & R2).
    cbn [obind fst snd].
    destruct (captures_ok dir e k true (x_out x) o2 f2 K Fo) as (o3 & f3 & -> & I3 & N3 & W3 & Z3 & SS3 & G3 & B3 & R3);
      [rewrite I2; exact S1|exact W2|].
    cbn [obind fst snd]. rewrite N2 in *. change (i_name o1) with (i_name o) in *.
    assert (Fr: forall p, (forall i a, p <> (dir, arg_file (i_name o) k i a e)) -> f3 p = f p).
    { intros p Hp. rewrite R3, R2; auto. }
    assert (Caps: (x_in x ++ x_out x = [])%list /\ i_caps o3 = [] \/ (x_in x ++ x_out x <> [])%list /\ i_caps o3 = [(e, caps_of o3 e)]).
    { destruct (x_in x) as [|g l] eqn:Ei.
      - rewrite (Z2 eq_refl) in *. destruct (x_out x) as [|g l] eqn:Eo.
        + left. rewrite (Z3 eq_refl). split; reflexivity.
        + right. split; [discriminate|]. rewrite SS3 at 1 by discriminate. reflexivity.
      - right. split; [discriminate|]. assert (Q: i_caps o2 = [(e, caps_of o2 e)]).
        { rewrite SS2 at 1 by discriminate. reflexivity. }
        destruct (x_out x) as [|g' l'] eqn:Eo; [rewrite (Z3 eq_refl); exact Q|].
        rewrite SS3 at 1 by discriminate. unfold with_caps, sset. cbn [i_caps]. rewrite Q. simpl. rewrite String.eqb_refl. reflexivity. }
    destruct Caps as [[Em Ca]|[Ne Ca]].
    + unfold exit_. rewrite Ca. cbn [obind]. exists o3, f3. split; [reflexivity|]. split; [exact N3|].
      split; [congruence|]. split; [discriminate|]. split; [auto|]. intros _ N. contradiction.
    + unfold exit_. rewrite Ca. unfold write_index. rewrite Ca. cbn [write_regions].
      rewrite I3, I2, S1, N3. cbn [obind].
      set (m := caps_of o3 e) in *. set (f4 := fwrite f3 (dir, index_file (i_name o) k e) (FJson (index_json ord (i_name o) k e m))).
      exists o3, f4. split; [reflexivity|]. split; [exact N3|]. split; [congruence|]. split; [discriminate|]. split.
      { intros p Hp Hi. unfold f4. rewrite fwrite_other by exact Hi. apply Fr, Hp. }
      intros _ _. destruct (index_roundtrip ord Hord f4 dir (i_name o) k e m W3 (fwrite_same _ _ _)) as (m' & E & G).
      exists m'. split; [exact E|].
      assert (Kp: forall i a g, f3 (dir, arg_file (i_name o) k i a e) = Some (FRaw g) -> f4 (dir, arg_file (i_name o) k i a e) = Some (FRaw g)).
      { intros i a g H. unfold f4. rewrite fwrite_other; [exact H|]. intros Q. injection Q as Q. revert Q. apply arg_index_file. }
      intros i aft. rewrite G. unfold m. rewrite G3, G2. unfold caps_of at 1 2. cbn [o1 i_caps invocation clear sget cm_get].
      destruct aft; cbn [Bool.eqb].
      * destruct (last_arg (x_out x) i) as [g|] eqn:L; [|reflexivity].
        assert (g_idx g = i) as Hi. { clear -L. induction (x_out x) as [|y l IH]; [discriminate|]. cbn [last_arg] in L.
          destruct (last_arg l i); [auto|]. destruct (Z.eqb_spec (g_idx y) i); [congruence|discriminate]. }
        cbv zeta. unfold fcap, final_cap. rewrite Hi. split; [reflexivity|]. apply Kp. apply B3. exact L.
      * destruct (last_arg (x_in x) i) as [g|] eqn:L; [|reflexivity].
        assert (g_idx g = i) as Hi. { clear -L. induction (x_in x) as [|y l IH]; [discriminate|]. cbn [last_arg] in L.
          destruct (last_arg l i); [auto|]. destruct (Z.eqb_spec (g_idx y) i); [congruence|discriminate]. }
        cbv zeta. unfold fcap, final_cap. rewrite Hi. split; [reflexivity|]. apply Kp. rewrite R3; [apply B2; exact L|].
        intros j. right. intros Q. injection Q as Q. apply arg_file_inj in Q; [|exact K|exact K]. destruct Q as (_ & _ & Q & _). discriminate.
  - cbn [obind fst snd]. change (exit_ ord dir o1 f) with (Some f). cbn [obind]. exists o1, f.
    split; [reflexivity|]. split; [reflexivity|]. split; [exact I1|]. split; [reflexivity|]. split; [reflexivity|]. discriminate.
Qed.

(* ---------- histories ---------- *)
Lemma run_execs_app which dir h x : forall o f, run_execs ord which dir (h ++ [x])%list o f =
  obind (run_execs ord which dir h o f) (fun of' => run_exec ord which dir x (fst of') (snd of')).
Proof.
  induction h as [|y h IH]; intros o f; cbn [app run_execs obind fst snd].
  - destruct (run_exec ord which dir x o f) as [[? ?]|]; reflexivity.
  - destruct (run_exec ord which dir y o f) as [[? ?]|]; [|reflexivity]. cbn [obind]. apply IH.
Qed.
Lemma execs_app e h x : execs_of e (h ++ [x])%list = (execs_of e h ++ (if N.eqb (x_elem x) e then [x] else []))%list.
Proof. unfold execs_of. rewrite filter_app. simpl. destruct (N.eqb (x_elem x) e); reflexivity. Qed.
Lemma captured_frame f f' name dir e k x :
  (forall i a, f' (dir, arg_file name k i a e) = f (dir, arg_file name k i a e)) -> f' (dir, index_file name k e) = f (dir, index_file name k e) ->
  captured f name dir e k x -> captured f' name dir e k x.
Proof.
  intros A B (m & E & H). exists m. split; [unfold from_index in *; rewrite B; exact E|].
  intros i aft. specialize (H i aft). destruct (last_arg _ i); [|exact H]. cbv zeta in *. rewrite A. exact H.
Qed.

Lemma count_wrap n : (if Nat.eqb n 0 then 0 else ((Z.of_nat n - 1) mod 2 ^ 32 + 1) mod 2 ^ 32) = Z.of_nat n mod 2 ^ 32.
Proof.
  destruct n; [reflexivity|]. cbn [Nat.eqb]. rewrite Zplus_mod_idemp_l. f_equal. lia.
Qed.
Lemma history_ok which dir name h : Forall exec_ok h ->
  exists o f, run_execs ord which dir h (new_io name) (fun _ => None) = Some (o, f) /\ i_name o = name /\
   (forall e, sget (i_inv o) (to_string_u e) =
      if Nat.eqb (List.length (execs_of e h)) 0 then None else Some ((Z.of_nat (List.length (execs_of e h)) - 1) mod 2 ^ 32)) /\
   (forall e, Z.of_nat (List.length (execs_of e h)) <= 2 ^ 32 ->
     (forall k x, nth_error (execs_of e h) k = Some x -> chosen which k = true -> (x_in x ++ x_out x <> [])%list ->
        captured f name dir (to_string_u e) (Z.of_nat k) x) /\
     (forall k, chosen which k = false \/ (List.length (execs_of e h) <= k)%nat -> Z.of_nat k < 2 ^ 32 ->
        f (dir, index_file name (Z.of_nat k) (to_string_u e)) = None /\
        forall i a, f (dir, arg_file name (Z.of_nat k) i a (to_string_u e)) = None)).
Proof.
  induction h as [|x h IH] using rev_ind; intros F.
  - exists (new_io name), (fun _ => None). split; [reflexivity|]. split; [reflexivity|]. split; [reflexivity|].
    intros e L. split; [intros [|k] x H; discriminate|]. auto.
  - apply Forall_app in F as [F Fx]. inversion Fx as [|? ? Hx _]; subst. destruct (IH F) as (o & f & E & Nm & Cn & H).
    rewrite run_execs_app, E. cbn [obind fst snd].
    destruct (run_exec_ok which dir x o f Hx) as (o' & f' & E' & Nm' & I' & NC & Fr & CC). rewrite E', Nm in *.
    set (ex := x_elem x) in *. set (kx := next o (to_string_u ex)) in *.
    assert (Kx: kx = Z.of_nat (List.length (execs_of ex h)) mod 2 ^ 32).
    { unfold kx, next. rewrite Cn. rewrite <- count_wrap. destruct (Nat.eqb _ 0); reflexivity. }
    exists o', f'. split; [reflexivity|]. split; [assumption|]. split.
    { intros e. rewrite I', sget_sset. destruct (String.eqb_spec (to_string_u ex) (to_string_u e)) as [Q|Q].
      - apply to_string_u_inj in Q. subst e. rewrite execs_app. fold ex. rewrite N.eqb_refl, app_length. cbn [List.length].
        rewrite Nat.add_1_r. cbn [Nat.eqb]. rewrite Kx. do 2 f_equal. lia.
      - rewrite Cn, execs_app. destruct (N.eqb_spec (x_elem x) e) as [Q'|]; [elim Q; unfold ex; congruence|]. rewrite app_nil_r. reflexivity. }
    intros e L. rewrite execs_app in L. rewrite app_length in L.
    destruct (H e) as [H1 H2]; [lia|]. fold ex in L |- *.
    (* the files of other invocations are not touched *)
    assert (Fe: forall k, e <> ex \/ Z.of_nat k <> kx -> 
       (forall i a, f' (dir, arg_file name (Z.of_nat k) i a (to_string_u e)) = f (dir, arg_file name (Z.of_nat k) i a (to_string_u e))) /\
       f' (dir, index_file name (Z.of_nat k) (to_string_u e)) = f (dir, index_file name (Z.of_nat k) (to_string_u e))).
    { pose proof (next_nonneg o (to_string_u ex) : 0 <= kx) as K0. intros k D. split; [intros i a|]; apply Fr.
      - intros i' a' Q. injection Q as Q. apply arg_file_inj in Q; [|lia|exact K0]. destruct Q as (Q1 & _ & _ & Q2).
        apply to_string_u_inj in Q2. tauto.
      - intros Q. injection Q as Q. revert Q. apply arg_index_file.
      - intros i' a' Q. injection Q as Q. symmetry in Q. revert Q. apply arg_index_file.
      - intros Q. injection Q as Q. apply index_file_inj in Q; [|lia|exact K0]. destruct Q as (Q1 & Q2).
        apply to_string_u_inj in Q2. tauto. }
    rewrite execs_app. fold ex. destruct (N.eqb_spec ex e) as [->|Ne].
    + cbn [List.length] in L. rewrite Z.mod_small in Kx by lia. split.
      * intros k y Hk Ch Ny. destruct (Nat.lt_ge_cases k (List.length (execs_of e h))) as [Lt|Ge].
        -- rewrite nth_error_app1 in Hk by exact Lt. destruct (Fe k) as [A B]; [right; lia|].
           eapply captured_frame; [exact A|exact B|]. apply H1; assumption.
        -- rewrite nth_error_app2 in Hk by exact Ge. destruct (k - List.length (execs_of e h))%nat as [|n] eqn:D; [|destruct n; discriminate].
           injection Hk as <-. assert (Q: Z.of_nat k = kx) by lia. rewrite Q. apply CC; [|exact Ny].
           unfold chosen in Ch. rewrite Q in Ch. exact Ch.
      * intros k D Lk. rewrite app_length in D. cbn [List.length] in D.
        destruct (Z.eq_dec (Z.of_nat k) kx) as [Q|Q].
        -- destruct D as [D|D]; [|lia]. rewrite (NC ltac:(unfold chosen in D; rewrite Q in D; exact D)).
           apply H2; [left; exact D|exact Lk].
        -- destruct (Fe k (or_intror Q)) as [A B]. destruct (H2 k) as [P1 P2]; [|exact Lk|].
           { destruct D as [D|D]; [left; exact D|right; lia]. }
           split; [rewrite B; exact P1|]. intros i a. rewrite A. apply P2.
    + rewrite app_nil_r. split.
      * intros k y Hk Ch Ny. destruct (Fe k) as [A B]; [left; congruence|].
        eapply captured_frame; [exact A|exact B|]. apply H1; assumption.
      * intros k D Lk. destruct (Fe k) as [A B]; [left; congruence|]. destruct (H2 k D Lk) as [P1 P2].
        split; [rewrite B; exact P1|]. intros i a. rewrite A. apply P2.
Qed.
End Ord.
