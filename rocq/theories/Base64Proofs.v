From Coq Require Import Lia ZifyBool ZifyNat.
From Verif Require Import Base64.
Local Open Scope Z_scope.
Ltac Zify.zify_post_hook ::= Z.div_mod_to_equations.
Definition byte (z : Z) : Prop := 0 <= z < 256.

Lemma sweep (P : Z -> bool) n : forallb P (map Z.of_nat (seq 0 n)) = true -> forall z, 0 <= z < Z.of_nat n -> P z = true.
Proof.
  intros H z Hz. rewrite forallb_forall in H. apply H. apply in_map_iff. exists (Z.to_nat z).
  split; [lia|]. apply in_seq. lia.
Qed.
Ltac byte_sweep P n := intros z Hz; apply Z.eqb_eq; revert z Hz; apply (sweep P n); vm_compute; reflexivity.
Lemma s_a1 : forall z, 0 <= z < Z.of_nat 256 -> Z.shiftr (Z.land z 252) 2 = z / 4.
Proof. byte_sweep (fun z => Z.shiftr (Z.land z 252) 2 =? z / 4) 256%nat. Qed.
Lemma s_a2 : forall z, 0 <= z < Z.of_nat 256 -> Z.shiftl (Z.land z 3) 4 = (z mod 4) * 16.
Proof. byte_sweep (fun z => Z.shiftl (Z.land z 3) 4 =? (z mod 4) * 16) 256%nat. Qed.
Lemma s_b1 : forall z, 0 <= z < Z.of_nat 256 -> Z.shiftr (Z.land z 240) 4 = z / 16.
Proof. byte_sweep (fun z => Z.shiftr (Z.land z 240) 4 =? z / 16) 256%nat. Qed.
Lemma s_b2 : forall z, 0 <= z < Z.of_nat 256 -> Z.shiftl (Z.land z 15) 2 = (z mod 16) * 4.
Proof. byte_sweep (fun z => Z.shiftl (Z.land z 15) 2 =? (z mod 16) * 4) 256%nat. Qed.
Lemma s_c1 : forall z, 0 <= z < Z.of_nat 256 -> Z.shiftr (Z.land z 192) 6 = z / 64.
Proof. byte_sweep (fun z => Z.shiftr (Z.land z 192) 6 =? z / 64) 256%nat. Qed.
Lemma s_c2 : forall z, 0 <= z < Z.of_nat 256 -> Z.land z 63 = z mod 64.
Proof. byte_sweep (fun z => Z.land z 63 =? z mod 64) 256%nat. Qed.
Lemma d_a1 : forall z, 0 <= z < Z.of_nat 256 -> Z.shiftl z 2 = z * 4.
Proof. byte_sweep (fun z => Z.shiftl z 2 =? z * 4) 256%nat. Qed.
Lemma d_b1 : forall z, 0 <= z < Z.of_nat 256 -> Z.shiftr (Z.land z 48) 4 = (z / 16) mod 4.
Proof. byte_sweep (fun z => Z.shiftr (Z.land z 48) 4 =? (z / 16) mod 4) 256%nat. Qed.
Lemma d_b2 : forall z, 0 <= z < Z.of_nat 256 -> Z.shiftl (Z.land z 15) 4 = (z mod 16) * 16.
Proof. byte_sweep (fun z => Z.shiftl (Z.land z 15) 4 =? (z mod 16) * 16) 256%nat. Qed.
Lemma d_c1 : forall z, 0 <= z < Z.of_nat 256 -> Z.shiftr (Z.land z 60) 2 = (z / 4) mod 16.
Proof. byte_sweep (fun z => Z.shiftr (Z.land z 60) 2 =? (z / 4) mod 16) 256%nat. Qed.
Lemma d_c2 : forall z, 0 <= z < Z.of_nat 256 -> Z.shiftl (Z.land z 3) 6 = (z mod 4) * 64.
Proof. byte_sweep (fun z => Z.shiftl (Z.land z 3) 6 =? (z mod 4) * 64) 256%nat. Qed.

Lemma dec_enc_char : forall z, 0 <= z < Z.of_nat 64 -> dec_char (enc_char z) = z.
Proof. byte_sweep (fun z => dec_char (enc_char z) =? z) 64%nat. Qed.
Lemma enc_char_b64 : forall z, 0 <= z < Z.of_nat 64 -> (is_base64 (enc_char z) && negb (enc_char z =? eq_char)) = true.
Proof. intros z Hz. revert z Hz. apply (sweep (fun z => is_base64 (enc_char z) && negb (enc_char z =? eq_char)) 64). vm_compute. reflexivity. Qed.

Lemma enc4_eq a b c : byte a -> byte b -> byte c ->
  enc4 a b c = [a / 4; (a mod 4) * 16 + b / 16; (b mod 16) * 4 + c / 64; c mod 64].
Proof.
  unfold byte, enc4, uchar. intros. rewrite s_a1, s_a2, s_b1, s_b2, s_c1, s_c2 by lia.
  rewrite (Z.mod_small (_ + b / 16)) by lia. rewrite (Z.mod_small (_ + c / 64)) by lia. reflexivity.
Qed.
Lemma dec3_enc4 a b c : byte a -> byte b -> byte c ->
  dec3 (a / 4) ((a mod 4) * 16 + b / 16) ((b mod 16) * 4 + c / 64) (c mod 64) = [a; b; c].
Proof.
  unfold byte, dec3, uchar. intros. rewrite d_a1, d_b1, d_b2, d_c1, d_c2 by lia.
  repeat f_equal; lia.
Qed.
Lemma dec3_tail2 a b d e : byte a -> byte b -> 0 <= e < 256 ->
  firstn 2 (dec3 (a / 4) ((a mod 4) * 16 + b / 16) ((b mod 16) * 4) d) = [a; b].
Proof.
  unfold byte, dec3, uchar. intros. rewrite d_a1, d_b1, d_b2, d_c1 by lia. cbn [firstn]. repeat f_equal; lia.
Qed.
Lemma dec3_tail1 a c d : byte a -> firstn 1 (dec3 (a / 4) ((a mod 4) * 16) c d) = [a].
Proof. unfold byte, dec3, uchar. intros. rewrite d_a1, d_b1 by lia. cbn [firstn]. repeat f_equal; lia. Qed.

Lemma dec_step buf z r : 0 <= z < 64 ->
  dec_loop buf (enc_char z :: r) =
  match buf ++ [enc_char z] with
  | [w; x; y; z] => dec3 (dec_char w) (dec_char x) (dec_char y) (dec_char z) ++ dec_loop [] r
  | buf' => dec_loop buf' r
  end.
Proof.
  intros H. cbn [dec_loop]. pose proof (enc_char_b64 z ltac:(lia)) as E. apply andb_true_iff in E as [E1 E2].
  rewrite E1. apply negb_true_iff in E2. rewrite E2. reflexivity.
Qed.
Lemma dec_eq buf r : dec_loop buf (eq_char :: r) = dec_tail buf.
Proof. reflexivity. Qed.
Ltac decs := repeat (rewrite dec_step by (unfold byte in *; lia); cbn [app]); rewrite ?dec_enc_char by (unfold byte in *; lia).

(** three bytes at a time *)
Lemma three_ind (P : list Z -> Prop) : P [] -> (forall a, P [a]) -> (forall a b, P [a; b]) ->
  (forall a b c r, P r -> P (a :: b :: c :: r)) -> forall l, P l.
Proof.
  intros H0 H1 H2 H3. fix IH 1. intros [|a [|b [|c r]]]; [exact H0|apply H1|apply H2|]. apply H3, IH.
Qed.
Lemma roundtrip_loop : forall bs, Forall byte bs -> dec_loop [] (enc_loop [] bs) = bs.
Proof.
  induction bs as [|a|a b|a b c r IH] using three_ind; intros F.
  - reflexivity.
  - inversion F; subst. cbn [enc_loop app enc_tail length nth plus Nat.sub repeat].
    rewrite enc4_eq by (unfold byte in *; lia). cbn [map app firstn].
    decs. rewrite dec_eq. unfold dec_tail. cbn [length nth Nat.sub].
    decs. change (0 / 16) with 0. rewrite Z.add_0_r.
    apply dec3_tail1; assumption.
  - inversion F as [|? ? ? F']; subst. inversion F'; subst. cbn [enc_loop app enc_tail length nth plus Nat.sub repeat].
    rewrite enc4_eq by (unfold byte in *; lia). cbn [map app firstn].
    decs. rewrite dec_eq. unfold dec_tail. cbn [length nth Nat.sub].
    decs. change (0 / 64) with 0. rewrite Z.add_0_r.
    apply (dec3_tail2 a b _ 0); unfold byte in *; lia.
  - inversion F as [|? ? Ha F']; subst. inversion F' as [|? ? Hb F'']; subst. inversion F'' as [|? ? Hc F3]; subst.
    cbn [enc_loop app]. rewrite enc4_eq by assumption. cbn [map app].
    decs. rewrite dec3_enc4 by assumption. cbn [app]. rewrite IH by assumption. reflexivity.
Qed.
Lemma enc_length : forall bs, Z.of_nat (length (enc_loop [] bs)) = 4 * ((Z.of_nat (length bs) + 2) / 3).
Proof.
  induction bs as [|a|a b|a b c r IH] using three_ind; try reflexivity.
  cbn [enc_loop app]. rewrite app_length, map_length. unfold enc4 at 1. cbn [length]. lia.
Qed.
(** what one encoded group means: the four sextets are the base-64 digits of
    the 24-bit big-endian number *)
Lemma enc4_digits a b c : byte a -> byte b -> byte c -> exists w x y z, enc4 a b c = [w; x; y; z] /\
  0 <= w < 64 /\ 0 <= x < 64 /\ 0 <= y < 64 /\ 0 <= z < 64 /\
  ((w * 64 + x) * 64 + y) * 64 + z = (a * 256 + b) * 256 + c.
Proof. intros A B C. rewrite enc4_eq by assumption. unfold byte in *. do 4 eexists. split; [reflexivity|]. lia. Qed.
Lemma enc_chars_ok : forall bs, Forall byte bs ->
  exists body pad, enc_loop [] bs = body ++ repeat eq_char pad /\ (pad <= 2)%nat /\ Forall (fun c => is_base64 c = true) body.
Proof.
  assert (K: forall z, 0 <= z < 64 -> is_base64 (enc_char z) = true).
  { intros z Hz. pose proof (enc_char_b64 z ltac:(lia)) as E. apply andb_true_iff in E. tauto. }
  induction bs as [|a|a b|a b c r IH] using three_ind; intros F.
  - exists [], 0%nat. repeat split; [lia|constructor].
  - inversion F; subst. cbn [enc_loop app enc_tail length nth plus Nat.sub].
    rewrite enc4_eq by (unfold byte in *; lia). cbn [map app firstn].
    eexists [_; _], 2%nat. split; [reflexivity|]. split; [lia|].
    repeat constructor; apply K; unfold byte in *; lia.
  - inversion F as [|? ? ? F']; subst. inversion F'; subst. cbn [enc_loop app enc_tail length nth plus Nat.sub].
    rewrite enc4_eq by (unfold byte in *; lia). cbn [map app firstn].
    eexists [_; _; _], 1%nat. split; [reflexivity|]. split; [lia|].
    repeat constructor; apply K; unfold byte in *; lia.
  - inversion F as [|? ? Ha F']; subst. inversion F' as [|? ? Hb F'']; subst. inversion F'' as [|? ? Hc F3]; subst.
    destruct (IH F3) as (body & pad & E & P & Q). cbn [enc_loop app]. rewrite E, enc4_eq by assumption. cbn [map app].
    exists (enc_char (a / 4) :: enc_char ((a mod 4) * 16 + b / 16) :: enc_char ((b mod 16) * 4 + c / 64) :: enc_char (c mod 64) :: body), pad.
    split; [reflexivity|]. split; [exact P|].
    repeat (constructor; [apply K; unfold byte in *; lia|]). exact Q.
Qed.
(** the decoder never produces anything but bytes *)
Lemma uchar_byte z : byte (uchar z). Proof. unfold byte, uchar. lia. Qed.
Lemma dec3_bytes a b c d : Forall byte (dec3 a b c d).
Proof. repeat constructor; apply uchar_byte. Qed.
Lemma firstn_Forall {A} (P : A -> Prop) n : forall l, Forall P l -> Forall P (firstn n l).
Proof. induction n; intros [|x l] H; simpl; try constructor; inversion H; subst; auto. Qed.
Lemma dec_tail_bytes buf : Forall byte (dec_tail buf).
Proof. destruct buf; [constructor|]. apply firstn_Forall, dec3_bytes. Qed.
Lemma dec_bytes : forall s buf, Forall byte (dec_loop buf s).
Proof.
  induction s as [|c r IH]; intros buf; [apply dec_tail_bytes|]. cbn [dec_loop].
  destruct (_ || _); [apply dec_tail_bytes|].
  destruct (buf ++ [c]) as [|w [|x [|y [|z [|v l]]]]]; try apply IH.
  apply Forall_app. split; [apply dec3_bytes|apply IH].
Qed.
