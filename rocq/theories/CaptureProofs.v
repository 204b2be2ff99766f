From Coq Require Import Lia Permutation ZifyBool ZifyNat.
From Verif Require Import Base64 Base64Proofs Capture StrFacts.
Local Open Scope string_scope.
Local Open Scope Z_scope.

Lemma key_eqb_spec a b : reflect (a = b) (key_eqb a b).
Proof.
  destruct a as [x b1], b as [y b2]. unfold key_eqb. simpl. destruct (Z.eqb_spec x y), b1, b2; simpl; constructor; congruence.
Qed.
Lemma path_eqb_spec a b : reflect (a = b) (path_eqb a b).
Proof.
  destruct a as [x b1], b as [y b2]. unfold path_eqb. simpl. destruct (list_eq_dec string_dec x y), (String.eqb_spec b1 b2); simpl; constructor; congruence.
Qed.
Lemma fwrite_same f p c : fwrite f p c p = Some c.
Proof. unfold fwrite. destruct (path_eqb_spec p p); congruence. Qed.
Lemma fwrite_other f p q c : q <> p -> fwrite f p c q = f q.
Proof. unfold fwrite. destruct (path_eqb_spec q p); congruence. Qed.

Lemma cm_get_erase m k k' : cm_get (cm_erase m k) k' = if key_eqb k k' then None else cm_get m k'.
Proof.
  induction m as [|[q c] m IH]; simpl; [destruct (key_eqb k k'); reflexivity|].
  destruct (key_eqb_spec k q) as [->|N]; simpl.
  - rewrite IH. destruct (key_eqb_spec q k'); [reflexivity|]. destruct (key_eqb_spec k' q); congruence.
  - destruct (key_eqb_spec k' q) as [->|N']; [|exact IH]. destruct (key_eqb_spec k q); congruence.
Qed.
Lemma cm_get_set m k c k' : cm_get (cm_set m k c) k' = if key_eqb k k' then Some c else cm_get m k'.
Proof.
  unfold cm_set. simpl. rewrite cm_get_erase. destruct (key_eqb_spec k' k), (key_eqb_spec k k'); congruence.
Qed.
Lemma erase_in m k x : In x (cm_erase m k) -> In x m /\ fst x <> k.
Proof.
  unfold cm_erase. rewrite filter_In. intros [A B]. split; [exact A|]. intros E. rewrite E in B.
  destruct (key_eqb_spec k k); [discriminate|congruence].
Qed.
Lemma erase_keys m k : NoDup (map fst m) -> NoDup (map fst (cm_erase m k)) /\ ~ In k (map fst (cm_erase m k)).
Proof.
  intros N. split.
  - unfold cm_erase. induction m as [|[q c] m IH]; simpl in *; [constructor|]. inversion N; subst.
    destruct (negb (key_eqb k q)) eqn:E; simpl; [|auto]. constructor; [|auto].
    intros I. apply in_map_iff in I as (x & E1 & I). apply filter_In in I as [I _]. apply H1. apply in_map_iff. exists x. auto.
  - intros I. apply in_map_iff in I as (x & E1 & I). apply erase_in in I as [_ I]. congruence.
Qed.
Lemma set_keys m k c : NoDup (map fst m) -> NoDup (map fst (cm_set m k c)).
Proof. intros N. unfold cm_set. simpl. destruct (erase_keys m k N). constructor; auto. Qed.

(** well-formed capture maps *)
Definition cap_ok (dir : list string) (c : cap) : Prop :=
  match c_data c with
  | Some d => Forall byte d /\ 4 * ((Z.of_nat (List.length d) + 2) / 3) < 2 ^ 31 /\ c_ext c = None
  | None => match c_ext c with Some p => fst p = dir | None => True end
  end.
Definition entry_ok (dir : list string) (kc : key * cap) : Prop :=
  fst kc = (c_idx (snd kc), c_after (snd kc)) /\ cap_ok dir (snd kc).
Definition wf_cmap (dir : list string) (m : cmap) : Prop := NoDup (map fst m) /\ Forall (entry_ok dir) m.
Lemma wf_set dir m k c : wf_cmap dir m -> k = (c_idx c, c_after c) -> cap_ok dir c -> wf_cmap dir (cm_set m k c).
Proof.
  intros [N F] K O. split; [apply set_keys; exact N|]. unfold cm_set. constructor; [split; assumption|].
  rewrite Forall_forall in *. intros x I. apply erase_in in I as [I _]. auto.
Qed.
Lemma wf_erase dir m k : wf_cmap dir m -> wf_cmap dir (cm_erase m k).
Proof.
  intros [N F]. split; [apply erase_keys; exact N|]. rewrite Forall_forall in *. intros x I. apply erase_in in I as [I _]. auto.
Qed.

Lemma omap_num l : omap as_num (map JNum l) = Some l.
Proof. rewrite (omap_map as_num JNum (fun x => x)); [rewrite map_id; reflexivity|reflexivity]. Qed.
Lemma enc_chars_range bs : Forall byte bs -> Forall (fun z => 0 <= z < 256) (base64_encode bs).
Proof.
  intros F. unfold base64_encode. set (l := if _ : bool then _ else _).
  assert (Fl: Forall byte l). { unfold l. destruct (_ <? _); [exact F|]. apply firstn_Forall. exact F. }
  destruct (enc_chars_ok l Fl) as (body & pad & -> & _ & B). apply Forall_app. split.
  - eapply Forall_impl; [|exact B]. unfold is_base64. intros a H. lia.
  - apply Forall_forall. intros x I. apply repeat_spec in I. subst. unfold eq_char. lia.
Qed.
Lemma b64_roundtrip bs : Forall byte bs -> 4 * ((Z.of_nat (List.length bs) + 2) / 3) < 2 ^ 31 -> base64_decode (base64_encode bs) = Some bs.
Proof.
  intros F L. unfold base64_decode, base64_encode.
  replace (Z.of_nat (List.length bs) <? 2 ^ 32) with true by (symmetry; apply Z.ltb_lt; change (2 ^ 32) with 4294967296; change (2 ^ 31) with 2147483648 in L; lia).
  rewrite enc_length. replace (_ <? 2 ^ 31) with true by (symmetry; apply Z.ltb_lt; exact L).
  rewrite roundtrip_loop by exact F. reflexivity.
Qed.
Lemma parse_serialize dir c : cap_ok dir c -> parse_cap dir (serialize_cap c) = Some c.
Proof.
  destruct c as [i a d p x dt]. unfold cap_ok. cbn [c_data c_ext]. intros H.
  unfold parse_cap, serialize_cap, jcontains. cbn [c_data c_ext c_idx c_after c_dims c_prim].
  destruct dt as [dt|].
  - destruct H as (F & L & E). cbn [app jget jlookup String.eqb Ascii.eqb Bool.eqb obind as_num as_bool as_arr as_str].
    rewrite omap_num. cbn [obind]. rewrite chars_str_of by (apply enc_chars_range; exact F).
    rewrite b64_roundtrip by assumption. cbn [obind]. rewrite E. reflexivity.
  - destruct x as [[pd pf]|]; cbn [app jget jlookup String.eqb Ascii.eqb Bool.eqb obind as_num as_bool as_arr as_str snd];
      rewrite omap_num; cbn [obind]; [|reflexivity]. simpl in H. subst pd. reflexivity.
Qed.

(** parse_all of the serialised entries: same lookups *)
Lemma parse_all_ok dir : forall l m0, Forall (entry_ok dir) l -> NoDup (map fst l) ->
  (forall k, In k (map fst l) -> cm_get m0 k = None) ->
  exists m, parse_all dir m0 (map (fun kc => serialize_cap (snd kc)) l) = Some m /\
    forall k, cm_get m k = match cm_get l k with Some c => Some c | None => cm_get m0 k end.
Proof.
  induction l as [|[k c] l IH]; intros m0 F N H; [exists m0; simpl; auto|].
  inversion F as [|? ? [K O] F']; subst. inversion N; subst. cbn [fst snd] in *. cbn [map parse_all snd]. unfold parse_from.
  rewrite parse_serialize by exact O. cbn [obind]. rewrite <- K. unfold cm_emplace.
  rewrite (H k) by (left; reflexivity).
  destruct (IH ((k, c) :: m0)) as (m & E & G); [assumption|assumption| |].
  { intros q I. simpl. destruct (key_eqb_spec q k) as [->|]; [contradiction|]. apply H. right. exact I. }
  exists m. split; [exact E|]. intros q. rewrite G. simpl. destruct (key_eqb_spec q k) as [->|]; [|reflexivity].
  destruct (cm_get l k) eqn:E2; [|reflexivity].
  exfalso. apply H2. clear -E2. induction l as [|[q d] l IH]; [discriminate|]. simpl in *. destruct (key_eqb_spec k q); auto.
Qed.
Lemma cm_get_in m k c : NoDup (map fst m) -> (cm_get m k = Some c <-> In (k, c) m).
Proof.
  induction m as [|[q d] m IH]; simpl; intros N; [split; [discriminate|tauto]|]. inversion N; subst.
  destruct (key_eqb_spec k q) as [->|Ne].
  - split; [intros [= ->]; auto|]. intros [E|I]; [congruence|]. exfalso. apply H1. apply in_map_iff. exists (q, c). auto.
  - rewrite IH by assumption. split; [auto|]. intros [E|I]; [congruence|exact I].
Qed.
Lemma cm_get_perm m m' k : Permutation m m' -> NoDup (map fst m) -> cm_get m k = cm_get m' k.
Proof.
  intros P N. assert (N': NoDup (map fst m')) by (eapply Permutation_NoDup; [apply Permutation_map; exact P|exact N]).
  destruct (cm_get m k) as [c|] eqn:E.
  - apply cm_get_in in E; [|exact N]. symmetry. apply cm_get_in; [exact N'|]. eapply Permutation_in; eassumption.
  - destruct (cm_get m' k) as [c|] eqn:E'; [|reflexivity]. apply cm_get_in in E'; [|exact N'].
    apply (Permutation_in _ (Permutation_sym P)) in E'. apply cm_get_in in E'; [|exact N]. congruence.
Qed.

Section Ord.
Variable ord : cmap -> cmap.
Hypothesis Hord : forall m, Permutation (ord m) m.

Lemma index_roundtrip f dir name k e m : wf_cmap dir m ->
  f (dir, index_file name k e) = Some (FJson (index_json ord name k e m)) ->
  exists m', from_index f (dir, index_file name k e) = Some {| i_name := name; i_inv := [(e, k)]; i_caps := [(e, m')] |} /\
    forall q, cm_get m' q = cm_get m q.
Proof.
  intros [N F] E. unfold from_index. rewrite E. unfold index_json.
  cbn [jget jlookup String.eqb Ascii.eqb Bool.eqb obind as_num as_str as_arr fst].
  rewrite Z.eqb_refl. cbn [negb].
  destruct (parse_all_ok dir (ord m) []) as (m' & P & G).
  { eapply Permutation_Forall; [apply Permutation_sym, Hord|exact F]. }
  { eapply Permutation_NoDup; [apply Permutation_map, Permutation_sym, Hord|exact N]. }
  { reflexivity. }
  rewrite P. cbn [obind]. exists m'. split; [reflexivity|]. intros q. rewrite G.
  rewrite (cm_get_perm (ord m) m q (Hord m)) by (eapply Permutation_NoDup; [apply Permutation_map, Permutation_sym, Hord|exact N]).
  destruct (cm_get m q); reflexivity.
Qed.

(* ---------- one captured argument ---------- *)
Lemma to_int32_small z : 0 <= z < 2 ^ 31 -> to_int32 z = z.
Proof. unfold to_int32. change (2 ^ 32) with 4294967296. change (2 ^ 31) with 2147483648. lia. Qed.
Lemma size_int_prod dims : forall acc a, acc = to_int32 a ->
  fold_left (fun acc d => to_int32 ((acc mod 2 ^ 64 * d) mod 2 ^ 64)) dims acc = to_int32 (fold_left Z.mul dims a).
Proof.
  induction dims as [|d dims IH]; intros acc a H; simpl; [exact H|]. apply IH. subst acc.
  unfold to_int32. f_equal.
  assert (K: forall x y, x mod 2 ^ 32 = y mod 2 ^ 32 -> (x + 2 ^ 31) mod 2 ^ 32 = (y + 2 ^ 31) mod 2 ^ 32).
  { intros x y E. rewrite Zplus_mod, E, <- Zplus_mod. reflexivity. }
  apply K.
  assert (D: forall x, (x mod 2 ^ 64) mod 2 ^ 32 = x mod 2 ^ 32).
  { intros x. symmetry. apply Znumtheory.Zmod_div_mod; [reflexivity|reflexivity|]. exists (2 ^ 32). reflexivity. }
  rewrite D, Zmult_mod, D, <- Zmult_mod. rewrite Zmult_mod.
  assert (T: ((a + 2 ^ 31) mod 2 ^ 32 - 2 ^ 31) mod 2 ^ 32 = a mod 2 ^ 32).
  { rewrite Zminus_mod, Zmod_mod, <- Zminus_mod. f_equal. lia. }
  rewrite T, <- Zmult_mod. reflexivity.
Qed.
Lemma size_int_ok dims : 0 <= fold_left Z.mul dims 1 < 2 ^ 31 -> size_int dims = fold_left Z.mul dims 1.
Proof. intros H. unfold size_int. rewrite (size_int_prod dims 1 1 eq_refl). apply to_int32_small, H. Qed.

Definition final_cap idx aft prim dims data ext := {| c_idx := idx; c_after := aft; c_dims := dims; c_prim := prim; c_ext := ext; c_data := data |}.
Lemma sget_sset {A} (m : list (string * A)) k c k' : sget (sset m k c) k' = if String.eqb k k' then Some c else sget m k'.
Proof.
  unfold sset. simpl. destruct (String.eqb_spec k' k) as [->|N].
  - rewrite String.eqb_refl. reflexivity.
  - destruct (String.eqb_spec k k') as [->|_]; [congruence|].
    induction m as [|[q d] m IH]; simpl; [reflexivity|]. destruct (String.eqb_spec k q) as [->|N2]; simpl.
    + destruct (String.eqb_spec k' q); [congruence|exact IH].
    + destruct (String.eqb_spec k' q); [reflexivity|exact IH].
Qed.
Lemma sset_sset {A} (m : list (string * A)) k c d : sset (sset m k c) k d = sset m k d.
Proof.
  unfold sset. simpl. rewrite String.eqb_refl. simpl. f_equal.
  induction m as [|[q x] m IH]; simpl; [reflexivity|]. destruct (String.eqb_spec k q); simpl; [exact IH|].
  destruct (String.eqb_spec k q); [congruence|]. simpl. rewrite IH. reflexivity.
Qed.
Lemma caps_with o e m : caps_of (with_caps o e m) e = m.
Proof. unfold caps_of, with_caps. simpl. rewrite String.eqb_refl. reflexivity. Qed.
Lemma with_with o e m m' : with_caps (with_caps o e m) e m' = with_caps o e m'.
Proof. unfold with_caps. cbn [i_name i_inv i_caps]. rewrite sset_sset. reflexivity. Qed.

(** create_and_capture_inline on a valid size: the entry is replaced *)
Lemma inline_ok o e idx aft prim dims d : 0 <= fold_left Z.mul dims 1 < 2 ^ 31 ->
  exists m, create_and_capture_inline o idx aft prim dims d e = Some (with_caps o e m) /\
    m = cm_set (cm_emplace (cm_erase (caps_of o e) (idx, aft)) (idx, aft) (new_cap idx aft prim dims)) (idx, aft)
          (final_cap idx aft prim dims (Some (bytes d (fold_left Z.mul dims 1))) None).
Proof.
  intros H. unfold create_and_capture_inline, cm_emplace.
  rewrite cm_get_erase. destruct (key_eqb_spec (idx, aft) (idx, aft)) as [_|]; [|congruence].
  cbn [cm_get]. destruct (key_eqb_spec (idx, aft) (idx, aft)) as [_|]; [|congruence].
  unfold capture_inline. cbn [c_dims c_idx c_after new_cap]. rewrite size_int_ok by exact H.
  destruct (Z.ltb_spec (fold_left Z.mul dims 1) 0); [lia|]. rewrite caps_with. cbn [cm_get].
  destruct (key_eqb_spec (idx, aft) (idx, aft)) as [_|]; [|congruence]. rewrite with_with. eexists. split; reflexivity.
Qed.
Lemma bytes_len d n : 0 <= n -> Z.of_nat (List.length (bytes d n)) = n.
Proof. intros. unfold bytes. rewrite map_length, seq_length. lia. Qed.
Lemma bytes_byte d n : (forall a, byte (d a)) -> Forall byte (bytes d n).
Proof. intros H. unfold bytes. apply Forall_forall. intros x I. apply in_map_iff in I as (i & <- & _). apply H. Qed.

Lemma inline_get m idx aft prim dims c q :
  cm_get (cm_set (cm_emplace (cm_erase m (idx, aft)) (idx, aft) (new_cap idx aft prim dims)) (idx, aft) c) q =
  if key_eqb (idx, aft) q then Some c else cm_get m q.
Proof.
  rewrite cm_get_set. destruct (key_eqb_spec (idx, aft) q) as [|N]; [reflexivity|]. unfold cm_emplace. rewrite cm_get_erase.
  destruct (key_eqb_spec (idx, aft) (idx, aft)); [|congruence]. simpl. rewrite cm_get_erase.
  destruct (key_eqb_spec (idx, aft) q); [congruence|]. destruct (key_eqb_spec q (idx, aft)); congruence.
Qed.
Lemma inline_wf dir m idx aft prim dims c : wf_cmap dir m -> (idx, aft) = (c_idx c, c_after c) -> cap_ok dir c ->
  wf_cmap dir (cm_set (cm_emplace (cm_erase m (idx, aft)) (idx, aft) (new_cap idx aft prim dims)) (idx, aft) c).
Proof.
  intros W K O. apply wf_set; [|exact K|exact O]. unfold cm_emplace. rewrite cm_get_erase.
  destruct (key_eqb_spec (idx, aft) (idx, aft)); [|congruence]. destruct (wf_erase dir m (idx, aft) W) as [N F].
  split.
  - simpl. constructor; [apply erase_keys; apply W|exact N].
  - constructor; [|exact F]. split; [reflexivity|]. exact I.
Qed.

(* ---------- inline histories (ArgCaptureIO API) ---------- *)
Record icall := { k_idx : Z; k_after : bool; k_prim : Z; k_dims : list Z; k_mem : mem }.
Fixpoint inlines (e : string) (l : list icall) (o : io) : option io :=
  match l with
  | [] => Some o
  | c :: r => obind (create_and_capture_inline o (k_idx c) (k_after c) (k_prim c) (k_dims c) (k_mem c) e) (inlines e r)
  end.
Fixpoint last_call (l : list icall) (q : key) : option icall :=
  match l with
  | [] => None
  | c :: r => match last_call r q with Some x => Some x | None => if key_eqb (k_idx c, k_after c) q then Some c else None end
  end.
Definition icall_ok (c : icall) : Prop :=
  0 <= fold_left Z.mul (k_dims c) 1 /\ 4 * ((fold_left Z.mul (k_dims c) 1 + 2) / 3) < 2 ^ 31 /\ forall a, byte (k_mem c a).
Definition icap (c : icall) : cap :=
  final_cap (k_idx c) (k_after c) (k_prim c) (k_dims c) (Some (bytes (k_mem c) (fold_left Z.mul (k_dims c) 1))) None.
Lemma inlines_ok dir e : forall l o, Forall icall_ok l -> wf_cmap dir (caps_of o e) ->
  exists m, (inlines e l o = Some (with_caps o e m) \/ (l = [] /\ inlines e l o = Some o /\ m = caps_of o e)) /\ wf_cmap dir m /\
    forall q, cm_get m q = match last_call l q with Some c => Some (icap c) | None => cm_get (caps_of o e) q end.
Proof.
  induction l as [|c l IH]; intros o F W.
  - exists (caps_of o e). split; [right; auto|]. split; [exact W|]. reflexivity.
  - inversion F as [|? ? (P & L & B) F']; subst. cbn [inlines].
    destruct (inline_ok o e (k_idx c) (k_after c) (k_prim c) (k_dims c) (k_mem c)) as (m1 & E & Em).
    { change (2 ^ 31) with 2147483648 in *. lia. }
    rewrite E. cbn [obind].
    assert (W1: wf_cmap dir m1).
    { subst m1. apply inline_wf; [exact W|reflexivity|]. unfold cap_ok, final_cap. cbn [c_data c_ext].
      split; [apply bytes_byte, B|]. split; [|reflexivity]. rewrite bytes_len by exact P. exact L. }
    destruct (IH (with_caps o e m1) F') as (m & R & Wm & G). { rewrite caps_with. exact W1. }
    exists m. split; [|split; [exact Wm|]].
    + left. destruct R as [R|(-> & R & ->)]; [rewrite R, with_with; reflexivity|]. rewrite R, caps_with. reflexivity.
    + intros q. rewrite G, caps_with. cbn [last_call]. destruct (last_call l q); [reflexivity|].
      subst m1. rewrite inline_get. destruct (key_eqb _ q); reflexivity.
Qed.
End Ord.
