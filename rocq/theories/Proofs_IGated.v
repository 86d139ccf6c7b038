(** InducedGatedNonLinearity1, field by field. *)
From Coq Require Import Reals ZArith String Ascii Decimal DecimalString List Bool Lia Lra Permutation Sorted FunctionalExtensionality.
From Verif Require Import Base Spec_Fields Model_Groups Model_Rep Model_FieldType Model_Utils Model_Modules Model_Fieldwise Model_IGated Spec_Fieldwise Spec_Fieldwise2 Spec_IGated
  Proofs_FieldType Proofs_FieldType2 Proofs_Utils Proofs_Modules Proofs_Modules2 Proofs_Modules3 Proofs_Fieldwise Proofs_Fieldwise2 Proofs_Fieldwise3 Proofs_Fieldwise4 Proofs_Fieldwise5 Proofs_Fieldwise7.
Import ListNotations.
Open Scope nat_scope.

Lemma pair_str_gate i : pair_str i <> GATES.
Proof. unfold pair_str, GATES. cbn. discriminate. Qed.

(** * The constructor *)
Lemma gsub_sub size q : forall nls acc o, gsub_loop size q acc nls = Ok o ->
  subfield_loop "induced_gated" size acc nls = Ok o /\ (forall s, o = Some s -> acc = Some s \/ q = Some (size / s)).
Proof.
  induction nls as [|nl nls IH]; intros acc o H; cbn [gsub_loop subfield_loop] in *.
  - injection H as <-. split; [reflexivity|auto].
  - destruct (starts_with "induced_gated" nl); [|apply IH; auto]. destruct acc as [a|]; [discriminate|].
    apply rbind_ok in H as (s & E & H). rewrite E. cbn [rbind]. destruct (s =? 0); [discriminate|]. apply assert_ok in H as [M H]. rewrite M. cbn [assert_].
    apply assert_ok in H as [D H]. destruct (IH _ _ H) as [H1 H2]. split; [auto|]. intros s' E'. right. destruct (H2 s' E') as [E2|E2]; auto.
    injection E2 as <-. destruct q as [q|]; [|discriminate]. apply Nat.eqb_eq in D. congruence.
Qed.
Lemma subfield_none pre size : forall nls acc, subfield_loop pre size acc nls = Ok None -> existsb (starts_with pre) nls = false.
Proof.
  induction nls as [|nl nls IH]; intros acc H; cbn [subfield_loop existsb] in *; [reflexivity|].
  destruct (starts_with pre nl); [|eapply IH; eauto]. exfalso. destruct acc; [discriminate|]. apply rbind_ok in H as (s & E & H). destruct (s =? 0); [discriminate|].
  apply assert_ok in H as [_ H].
  assert (N : forall nls a, subfield_loop pre size (Some a) nls <> Ok None).
  { clear. induction nls as [|nl nls IH]; intros a; cbn [subfield_loop]; [congruence|]. destruct (starts_with pre nl); [discriminate|auto]. }
  exact (N nls s H).
Qed.

Section Make.
Context {GS G X : Type} (fits : GS -> rep G -> bool) (gs_eqb : GS -> GS -> bool) (rp_eqb : rep G -> rep G -> bool).
Notation chan := (X -> R).
Notation ftype := (ftype GS (rep G)).
Notation gtensor := (gtensor GS (rep G) chan).
Notation type_eqb := (ft_eqb gs_eqb rp_eqb).
Notation zero := (fun _ : X => 0%R).

Definition idr (r : rep G) : nat * nat := match field_id "induced_gated" r with Ok i => i | Err _ => (0, 0) end.
Definition lab (p : string * rep G) : string * nat := (if String.eqb (fst p) GATES then GATES else pair_str (idr (snd p)), rp_size (snd p)).

Lemma quotient_spec : forall (l : list (string * rep G)) q q', quotient_loop q l = Ok q' ->
  (forall n, q = Some n -> q' = Some n) /\ forall r, In (GATES, r) l -> q' = Some (rp_size r).
Proof.
  induction l as [|[g r] l IH]; intros q q' H; cbn [quotient_loop] in H.
  - injection H as <-. split; [auto|intros r []].
  - destruct (String.eqb_spec g GATES) as [->|N].
    + destruct q as [n|].
      * apply assert_ok in H as [E H]. apply Nat.eqb_eq in E. destruct (IH _ _ H) as [H1 H2]. split; [auto|]. intros r' [E'|Hr]; auto.
        injection E' as <-. rewrite E. auto.
      * destruct (IH _ _ H) as [H1 H2]. split; [discriminate|]. intros r' [E'|Hr]; auto. injection E' as <-. auto.
    + destruct (IH _ _ H) as [H1 H2]. split; [auto|]. intros r' [E'|Hr]; auto. congruence.
Qed.
Lemma subsizes_spec q : forall (l : list (string * rep G)) d d', subfield_sizes q l d = Ok d' ->
  (forall r, In (GATED, r) l -> exists o, gsub_loop (rp_size r) q None (rp_nonlin r) = Ok o /\ (o <> None -> kget String.eqb d' (rp_name r) <> None)) /\
  (forall n, kget String.eqb d n <> None -> kget String.eqb d' n <> None) /\
  (forall n s, kget String.eqb d' n = Some s -> kget String.eqb d n = Some s \/
     exists r, In (GATED, r) l /\ rp_name r = n /\ gsub_loop (rp_size r) q None (rp_nonlin r) = Ok (Some s)).
Proof.
  induction l as [|[g r] l IH]; intros d d' H; cbn [subfield_sizes] in H.
  - injection H as <-. split; [intros r []|]. auto.
  - destruct (String.eqb_spec g GATED) as [->|N].
    + apply rbind_ok in H as (o & E & H). apply IH in H as (H1 & H2 & H3).
      assert (KS : forall (d : list (string * nat)) n s n', kget String.eqb (kset String.eqb d n s) n' = if String.eqb n n' then Some s else kget String.eqb d n').
      { intros. apply (kget_kset _ String.eqb_spec). }
      split; [|split].
      * intros r' [E'|Hr]; auto. injection E' as <-. exists o. split; auto. intros No. apply H2. destruct o as [s|]; [|congruence]. rewrite KS, String.eqb_refl. discriminate.
      * intros n Hn. apply H2. destruct o as [s|]; auto. rewrite KS. destruct (String.eqb (rp_name r) n); [discriminate|auto].
      * intros n s Hn. destruct (H3 n s Hn) as [Hd|(r' & I1 & I2 & I3)]; [|right; exists r'; cbn; auto].
        destruct o as [s'|]; [|auto]. rewrite KS in Hd. destruct (String.eqb_spec (rp_name r) n) as [<-|Nn]; [|auto]. injection Hd as <-. right. exists r. cbn. auto.
    + apply IH in H as (H1 & H2 & H3). split; [|split]; auto.
      * intros r' [E'|Hr]; auto. congruence.
      * intros n s Hn. destruct (H3 n s Hn) as [Hd|(r' & I1 & I2 & I3)]; auto. right. exists r'. cbn. auto.
Qed.

Lemma make_facts t gates drop bias (m : igated1 (GS:=GS) (G:=G)) gs : igated1_make fits t gates drop bias = Ok m -> gate_labels gates (length (ft_reps t)) = Ok gs ->
  names_identify (ft_reps t) ->
  let gr := combine gs (ft_reps t) in
  (forall g, In g gs -> g = GATES \/ g = GATED) /\
  length (filter (String.eqb GATES) gs) = length (filter (String.eqb GATED) gs) /\
  ig_in m = t /\ ig_drop m = drop /\ (if drop then index_select fits t (map Z.of_nat (gated_fields gs)) else Ok t) = Ok (ig_out m) /\
  ig_fs m = map lab gr /\ group_index (map lab gr) = Ok (ig_cin m) /\ out_index drop (map fst (map lab gr)) (keep_fields drop (map lab gr)) = Ok (ig_cout m) /\
  kget String.eqb (ig_cin m) GATES <> None /\ ig_order m = id_order (map (fun p => idr (snd p)) (filter (fun p => isgated (fst p)) gr)) /\
  length (ig_bias m) = length (filter (String.eqb GATES) gs) /\
  (forall r, In (GATES, r) gr -> ig_q m = Some (rp_size r)) /\
  (forall r, In (GATED, r) gr -> field_id "induced_gated" r = Ok (idr r) /\ fst (idr r) = rp_size r /\ snd (idr r) <> 0 /\ fst (idr r) mod snd (idr r) = 0 /\ ig_q m = Some (rp_size r / snd (idr r))).
Proof.
  intros MK GL NI gr. pose proof (gate_labels_len _ _ _ GL) as LG. unfold igated1_make in MK. rewrite GL in MK. cbn [rbind] in MK. cbv zeta in MK. fold gr in MK.
  apply rbind_ok in MK as (us & CK & MK). apply assert_ok in MK as [NG MK]. apply Nat.eqb_eq in NG.
  apply rbind_ok in MK as (q & QL & MK). apply rbind_ok in MK as (d & SD & MK). apply rbind_ok in MK as (out & IO & MK). apply rbind_ok in MK as (fs & FS & MK).
  apply rbind_ok in MK as (cin & CI & MK). apply rbind_ok in MK as (cout & CO & MK). apply rbind_ok in MK as (u & GK & MK). apply rbind_ok in MK as (ids & ID & MK).
  injection MK as <-. cbn [ig_in ig_out ig_drop ig_q ig_fs ig_order ig_cin ig_cout ig_bias].
  assert (CK' : forall p, In p gr -> ig_check p = Ok tt).
  { intros p Hp. apply rmap_all in CK. clear -CK Hp. induction CK as [|a b l l' H _ IH]; [destruct Hp|]. destruct Hp as [->|Hp]; auto. destruct b. auto. }
  assert (HG2 : forall g r, In (g, r) gr -> g = GATES \/ g = GATED).
  { intros g r H. apply CK' in H. unfold ig_check in H. cbn [fst snd] in H. destruct (String.eqb_spec g GATES); auto. destruct (String.eqb_spec g GATED); auto. discriminate. }
  assert (HG : forall g, In g gs -> g = GATES \/ g = GATED).
  { intros g Hg. apply In_nth_error in Hg as [i Hi]. destruct (nth_error (ft_reps t) i) as [r|] eqn:Er.
    - apply (HG2 g r). apply (nth_error_In _ i). unfold gr. clear -Hi Er. revert gs Hi Er. generalize (ft_reps t). induction i; intros [|a l] [|c gs] H1 H2; cbn in *; try discriminate; [congruence|auto].
    - apply nth_error_None in Er. assert (i < length gs) by (apply nth_error_Some; congruence). lia. }
  destruct (quotient_spec _ _ _ QL) as [_ QG]. destruct (subsizes_spec _ _ _ _ SD) as (S1 & _ & S3).
  assert (INR : forall g r, In (g, r) gr -> In r (ft_reps t)) by (intros g r H; unfold gr in H; apply in_combine_r in H; auto).
  assert (GD : forall r, In (GATED, r) gr -> field_id "induced_gated" r = Ok (idr r) /\ fst (idr r) = rp_size r /\ snd (idr r) <> 0 /\ fst (idr r) mod snd (idr r) = 0 /\ q = Some (rp_size r / snd (idr r)) /\
     ig_id d r = Ok (idr r)).
  { intros r Hr. destruct (S1 r Hr) as (o & O1 & O2). destruct (gsub_sub _ _ _ _ _ O1) as [O3 O4].
    destruct o as [s|].
    2:{ exfalso. apply subfield_none in O3. apply CK' in Hr. unfold ig_check in Hr. cbn [fst snd] in Hr. change (String.eqb GATED GATES) with false in Hr. change (String.eqb GATED GATED) with true in Hr.
        cbv iota in Hr. rewrite O3 in Hr. discriminate. }
    assert (FI : field_id "induced_gated" r = Ok (rp_size r, s)) by (unfold field_id; rewrite O3; reflexivity).
    assert (EI : idr r = (rp_size r, s)) by (unfold idr; rewrite FI; reflexivity). destruct (field_id_ok _ _ _ FI) as (F1 & F2 & F3).
    rewrite EI. split; [auto|]. split; [auto|]. split; [auto|]. split; [auto|]. cbn [snd]. split; [destruct (O4 s eq_refl); [discriminate|auto]|].
    unfold ig_id. destruct (kget String.eqb d (rp_name r)) as [s'|] eqn:EK; [|elim (O2 ltac:(discriminate) eq_refl)].
    destruct (S3 _ _ EK) as [K|(r' & K1 & K2 & K3)]; [discriminate|].
    destruct (NI r r' ltac:(eauto) ltac:(eauto) ltac:(auto)) as [N1 N2]. rewrite <- N1, <- N2, O1 in K3. congruence. }
  assert (EFS : fs = map lab gr).
  { apply rmap_all in FS. clear -FS GD HG2. induction FS as [|p e l l' H _ IH]; [reflexivity|]. cbn [map]. f_equal.
    - unfold ig_label, lab in *. destruct p as [g r]. cbn [fst snd] in *. destruct (String.eqb_spec g GATES) as [->|N]; [congruence|].
      destruct (HG2 g r ltac:(cbn; auto)) as [->| ->]; [congruence|]. destruct (GD r ltac:(cbn; auto)) as (_ & _ & _ & _ & _ & E). rewrite E in H. cbn [rbind] in H. congruence.
    - apply IH; intros; [eapply HG2|apply GD]; cbn; eauto. }
  assert (EID : ids = map (fun p => idr (snd p)) (filter (fun p => isgated (fst p)) gr)).
  { change (fun p : string * rep G => negb (String.eqb (fst p) GATES)) with (fun p : string * rep G => isgated (fst p)) in ID.
    apply rmap_all in ID. assert (XX : forall p, In p (filter (fun p => isgated (fst p)) gr) -> ig_id d (snd p) = Ok (idr (snd p))).
    { intros [g r] Hp. apply filter_In in Hp as [Hp Hg]. cbn [fst snd] in *. destruct (HG2 g r Hp) as [->| ->]; [discriminate|]. apply (GD r Hp). }
    revert XX. clear -ID. induction ID as [|p e l l' H _ IH]; intros XX; [reflexivity|]. cbn [map]. f_equal; [|apply IH; intros; apply XX; cbn; auto].
    rewrite (XX p) in H by (cbn; auto). congruence. }
  subst fs ids. split; [auto|]. split; [auto|]. split; [auto|]. split; [auto|]. split; [auto|]. split; [auto|]. split; [auto|]. split; [auto|].
  split; [destruct (kget String.eqb cin GATES); discriminate|]. split; [auto|]. split; [rewrite map_length, seq_length; auto|]. split; [auto|].
  intros r Hr. destruct (GD r Hr) as (H1 & H2 & H3 & H4 & H5 & _). auto.
Qed.

(** * Groups of gated fields *)
Lemma igate_group_ok s Q next (gb : list (list chan)) (fm : list chan) bl : s <> 0 -> view_fields (Q * s) fm = Ok bl -> next + length bl <= length gb ->
  (forall e, In e gb -> length e = Q) ->
  gate_group s (concat (sub_list gb next (next + length bl))) fm =
  Ok (concat (map (fun p => induced_gate_act s (nth (next + fst p) gb (repeat zero Q)) (snd p)) (enumerate bl))).
Proof.
  intros S0 V LE LQ. destruct (view_sub s Q fm bl S0 V) as [V' LB]. unfold gate_group. rewrite V'. cbn [rbind].
  assert (SL : sub_list gb next (next + length bl) = map (fun i => nth (next + i) gb (repeat zero Q)) (seq 0 (length bl))).
  { apply nth_error_ext. intros i. rewrite sub_list_nth, nth_error_map. replace (next + length bl - next) with (length bl) by lia.
    destruct (Nat.ltb_spec i (length bl)).
    - rewrite (nth_error_nth' (seq 0 (length bl)) 0) by (rewrite seq_length; lia). rewrite seq_nth by auto. cbn [option_map Nat.add].
      rewrite (nth_error_nth' gb (repeat zero Q)) by lia. reflexivity.
    - assert (nth_error (seq 0 (length bl)) i = None) as ->; [|reflexivity]. apply nth_error_None. rewrite seq_length. auto. }
  assert (LN : forall i, length (nth (next + i) gb (repeat zero Q)) = Q).
  { intros i. destruct (Nat.lt_ge_cases (next + i) (length gb)).
    - apply LQ, nth_In. auto. - rewrite nth_overflow by auto. apply repeat_length. }
  rewrite SL. clear SL V V' LE LQ. unfold zip_eq.
  assert (LL : forall i0, length (concat (map (blocks s) bl)) = length (concat (map (fun i => nth (next + i) gb (repeat zero Q)) (seq i0 (length bl))))).
  { induction bl as [|b bl IH]; intros i0; [reflexivity|]. cbn [length seq map concat]. rewrite !app_length, LN. rewrite (IH ltac:(intros; apply LB; cbn; auto) (S i0)). f_equal.
    rewrite blocks_len2, LB by (cbn; auto). apply Nat.div_mul. auto. }
  rewrite (LL 0), Nat.eqb_refl. cbn [rbind]. apply f_equal. unfold enumerate. generalize 0 as i0. clear LL. induction bl as [|b bl IH]; intros i0; [reflexivity|].
  cbn [length seq map concat combine fst snd]. rewrite combine_app, map_app, concat_app.
  - rewrite (IH ltac:(intros; apply LB; cbn; auto)). f_equal. unfold induced_gate_act.
    rewrite (LB b) by (cbn; auto). rewrite Nat.div_mul by auto. rewrite <- (blocks_cut s Q) by (auto; apply LB; cbn; auto). reflexivity.
  - rewrite blocks_len2, LB by (cbn; auto). rewrite LN. apply Nat.div_mul. auto.
Qed.
Lemma act_len s Q (gl v : list chan) : s <> 0 -> length v = Q * s -> length gl = Q -> length (induced_gate_act s gl v) = Q * s.
Proof.
  intros S0 LV LG. unfold induced_gate_act. rewrite LV, Nat.div_mul by auto. rewrite <- (blocks_cut s Q) by auto.
  rewrite (concat_blocks_length s).
  - rewrite map_length, combine_length, blocks_len2, LV, LG, Nat.div_mul, Nat.min_id by auto. reflexivity.
  - intros e He. apply in_map_iff in He as ([c g] & <- & He). cbn. unfold scaled. rewrite map_length. apply in_combine_l in He. apply (blocks_len _ _ _ He).
Qed.
Lemma open_blocks_ok Q (bl : list (list chan)) bias : length bl = length bias -> (forall e, In e bl -> length e = Q) ->
  exists g, open_blocks bl bias = Ok g /\ length g = length bl /\ (forall e, In e g -> length e = Q) /\
    forall j, j < length bl -> nth j g (repeat zero Q) = map (fun c => gate c (nth j bias 0%R)) (nth j bl []).
Proof.
  intros L LQ. unfold open_blocks, zip_eq. rewrite L, Nat.eqb_refl. cbn [rbind]. eexists. split; [reflexivity|].
  rewrite map_length, combine_length, L, Nat.min_id. split; [auto|]. split.
  - intros e He. apply in_map_iff in He as ([c b] & <- & He). cbn. rewrite map_length. apply in_combine_l in He. auto.
  - intros j Hj. rewrite (nth_indep _ _ ((fun gb : list chan * R => map (fun c : chan => fun p => sigmoid (c p - snd gb)) (fst gb)) ([], 0%R))) by (rewrite map_length, combine_length; lia).
    rewrite (map_nth (fun gb : list chan * R => map (fun c : chan => fun p => sigmoid (c p - snd gb)) (fst gb))). rewrite combine_nth by auto. reflexivity.
Qed.
End Make.
