(** C41, C42, C43: modules that treat every field separately. *)
From Coq Require Import Reals ZArith String List Bool Lia Lra FunctionalExtensionality.
From Verif Require Import Base LinAlg Spec Spec_Fields Model_Groups Model_Rep Model_Regular Model_FieldType Model_Tensor Model_Utils Model_Fieldwise
  Spec_Fieldwise Spec_Fieldwise2 Proofs_Groups Proofs_Irreps Proofs_Rep Proofs_Regular Proofs_Regular2 Prop_Regular
  Proofs_FieldType Proofs_Tensor Proofs_Utils Proofs_Fieldwise Proofs_Fieldwise2 Proofs_Fieldwise3 Proofs_Fieldwise4 Proofs_Fieldwise5 Proofs_Fieldwise6
  Proofs_Fieldwise7 Proofs_Fieldwise8 Proofs_Fieldwise9 Proofs_Fieldwise10.
Import ListNotations.
Open Scope R_scope.

(** In all theorems: [gs_eqb], [rp_eqb] compare spaces and representations, [fits] is the group check of FieldType, [is_triv]
    is Representation.is_trivial, [trivial_repr] the trivial representation of a space.  A channel is a function of the
    remaining indices X (batch entry and position); [junk] is the uninitialised memory that torch.empty returns. *)

(** ** C41 *)
(** Every field has its own parameter: the places are a numbering of the fields. *)
Theorem C41_places : forall (keys : list nat) (pkeys : list (nat * nat)),
  (forall f, (f < length keys)%nat -> (place Nat.ltb Nat.eqb keys f < length keys)%nat) /\
  (forall f f', (f < length keys)%nat -> (f' < length keys)%nat -> place Nat.ltb Nat.eqb keys f = place Nat.ltb Nat.eqb keys f' -> f = f') /\
  (forall f, (f < length pkeys)%nat -> (place pair_ltb pair_eqb pkeys f < length pkeys)%nat) /\
  (forall f f', (f < length pkeys)%nat -> (f' < length pkeys)%nat -> place pair_ltb pair_eqb pkeys f = place pair_ltb pair_eqb pkeys f' -> f = f').
Proof.
  intros keys pkeys.
  assert (IR : forall a, pair_ltb a a = false). { intros [a b]. unfold pair_ltb. cbn [fst snd]. rewrite !Nat.ltb_irrefl, Nat.eqb_refl. reflexivity. }
  split; [|split; [|split]].
  - intros f H. apply place_lt; [apply Nat.eqb_spec|apply Nat.ltb_irrefl|auto].
  - intros f f' H H' E. refine (place_inj _ _ Nat.eqb_spec Nat.ltb_irrefl _ _ keys f f' H H' E).
    + intros a b c H1 H2. apply Nat.ltb_lt in H1, H2. apply Nat.ltb_lt. lia.
    + intros a b. destruct (Nat.lt_total a b) as [L|[L|L]]; auto; apply Nat.ltb_lt in L; auto.
  - intros f H. apply place_lt; [apply pair_eqbP|auto|auto].
  - intros f f' H H' E. refine (place_inj _ _ pair_eqbP IR _ _ pkeys f f' H H' E).
    + intros [a b] [c d] [e h]. unfold pair_ltb. cbn [fst snd].
      destruct (Nat.ltb_spec a c), (Nat.eqb_spec a c), (Nat.ltb_spec b d), (Nat.ltb_spec c e), (Nat.eqb_spec c e), (Nat.ltb_spec d h),
        (Nat.ltb_spec a e), (Nat.eqb_spec a e), (Nat.ltb_spec b h); cbn; auto; try lia; try discriminate.
    + intros [a b] [c d]. unfold pair_ltb. cbn [fst snd].
      destruct (Nat.ltb_spec a c), (Nat.eqb_spec a c), (Nat.ltb_spec b d), (Nat.ltb_spec c a), (Nat.eqb_spec c a), (Nat.ltb_spec d b); cbn; auto; try lia. left. f_equal; lia.
Qed.
Print Assumptions C41_places.
Example C41_places_ex : map (place Nat.ltb Nat.eqb [4; 1; 4; 2; 1]%nat) (seq 0 5) = [3; 0; 4; 2; 1]%nat.
Proof. reflexivity. Qed.

(** The functions the names stand for. *)
Definition named_norm_function (name : string) (f : R -> R) : Prop :=
  (name = "n_relu"%string /\ f = fun n => Rmax 0 n) \/ (name = "n_sigmoid"%string /\ f = fun n => / (1 + exp (- n))) \/
  (name = "squash"%string /\ f = fun n => n / (1 + n)).

Section C41.
Context {GS G X : Type} (fits : GS -> rep G -> bool) (gs_eqb : GS -> GS -> bool) (rp_eqb : rep G -> rep G -> bool)
        (is_triv : rep G -> bool) (trivial_repr : GS -> rep G).
Notation chan := (X -> R).
Notation ftype := (ftype GS (rep G)).
Notation gtensor := (gtensor GS (rep G) chan).

(** NormNonLinearity, for arbitrary values lb of the log-biases. *)
Theorem C41_norm : forall (t : ftype) fn bias m lb junk (x : gtensor),
  norm_make t fn bias = Ok m -> size_pos t -> same_shape (nn_logb m) lb -> typed gs_eqb rp_eqb t x ->
  named_norm_function fn (nn_fun m) /\
  exists y, norm_forward gs_eqb rp_eqb junk (set_logb m lb) x = Ok y /\ gt_type y = t /\
    fieldwise (ft_reps t) (ft_reps t)
      (fun f => norm_act (/ 10 ^ 10) (nn_fun m) (bias_at lb (place Nat.ltb Nat.eqb (map rp_size (ft_reps t)) f))) (gt_data x) (gt_data y).
Proof.
  intros t fn bias m lb junk x MK SP SS TX. split; [|exact (norm_fieldwise gs_eqb rp_eqb t fn bias m lb junk x MK SP SS TX)].
  unfold norm_make in MK. apply assert_ok in MK as [_ MK]. apply rbind_ok in MK as (f & E & MK). apply rbind_ok in MK as (i & _ & MK). injection MK as <-. cbn [nn_fun].
  unfold named_norm_function. destruct (String.eqb_spec fn "n_relu"); [injection E as <-; auto|]. destruct (String.eqb_spec fn "n_sigmoid"); [injection E as <-; auto|].
  destruct (String.eqb_spec fn "squash"); [apply assert_ok in E as [_ E]; injection E as <-; auto|discriminate].
Qed.

(** InducedNormNonLinearity; (S, s) below: size of the field and of its sub-fields. *)
Theorem C41_induced_norm : forall (t : ftype) fn bias m lb junk (x : gtensor),
  inorm_make t fn bias = Ok m -> size_pos t -> same_shape (in_logb m) lb -> typed gs_eqb rp_eqb t x ->
  named_norm_function fn (in_fun m) /\
  exists y ids, inorm_forward gs_eqb rp_eqb junk (set_ilogb m lb) x = Ok y /\ gt_type y = t /\
    rmap (field_id "induced_norm") (ft_reps t) = Ok ids /\
    fieldwise (ft_reps t) (ft_reps t)
      (fun f => induced_norm_act (/ 10 ^ 10) (in_fun m) (bias_at lb (place pair_ltb pair_eqb ids f)) (snd (nth f ids (0, 0)%nat))) (gt_data x) (gt_data y).
Proof.
  intros t fn bias m lb junk x MK SP SS TX. split.
  - unfold inorm_make in MK. apply assert_ok in MK as [_ MK]. apply rbind_ok in MK as (f & E & MK). apply rbind_ok in MK as (i & _ & MK). apply rbind_ok in MK as (j & _ & MK).
    injection MK as <-. cbn [in_fun]. unfold named_norm_function. destruct (String.eqb_spec fn "n_relu"); [injection E as <-; auto|].
    destruct (String.eqb_spec fn "n_sigmoid"); [injection E as <-; auto|]. destruct (String.eqb_spec fn "squash"); [injection E as <-; auto|discriminate].
  - destruct (inorm_fieldwise gs_eqb rp_eqb t fn bias m lb junk x MK SP SS TX) as (y & H). exists y, (in_ids m). exact H.
Qed.

(** GatedNonLinearity2: field f is multiplied by the gate with the number place f. *)
Theorem C41_gated2 : forall (tg t : ftype) bias m b junk (gx x : gtensor), (forall r, is_triv r = true -> rp_size r = 1%nat) ->
  gated2_make gs_eqb is_triv tg t bias = Ok m -> size_pos t -> length b = length (g2_bias m) ->
  typed gs_eqb rp_eqb tg gx -> typed gs_eqb rp_eqb t x ->
  exists y, gated2_forward gs_eqb rp_eqb junk (set_bias2 m b) gx x = Ok y /\ gt_type y = t /\
    fieldwise (ft_reps t) (ft_reps t) (fun f => let j := place Nat.ltb Nat.eqb (map rp_size (ft_reps t)) f in
      scaled (gate (nth j (gt_data gx) (fun _ => 0)) (nth j b 0))) (gt_data x) (gt_data y).
Proof. intros tg t bias m b junk gx x TR MK SP LB TG TX. exact (gated2_fieldwise gs_eqb rp_eqb is_triv tg t bias m b junk gx x TR MK SP LB TG TX). Qed.

(** GatedNonLinearity1, with and without drop_gates.  gs: the labels of the fields, "gate" or "gated". *)
Theorem C41_gated1 : forall (t : ftype) gates drop bias m gs b junk (x : gtensor), (forall r, is_triv r = true -> rp_size r = 1%nat) ->
  gated1_make fits is_triv t gates drop bias = Ok m ->
  match gates with Some l => gs = l | None => gs = repeat GATES (length (ft_reps t) / 2) ++ repeat GATED (length (ft_reps t) / 2) end ->
  size_pos t -> length b = length (g1_bias m) -> typed gs_eqb rp_eqb t x ->
  exists y, gated1_forward gs_eqb rp_eqb junk (set_bias1 m b) x = Ok y /\ gt_type y = g1_out m /\
    length (gt_data y) = nsum (map rp_size (ft_reps (g1_out m))) /\
    (* the output type: the gated fields only, or all fields *)
    (if drop then ft_reps (g1_out m) = map snd (filter (fun p => isgated (fst p)) (combine gs (ft_reps t))) else g1_out m = t) /\
    (* gated fields *)
    (forall f g v, nth_error gs f = Some g -> g <> GATES -> nth_error (fields (ft_reps t) (gt_data x)) f = Some v ->
       exists v', nth_error (fields (ft_reps (g1_out m)) (gt_data y)) (if drop then before isgated gs f else f) = Some v' /\
         let j := place Nat.ltb Nat.eqb (map (fun p => rp_size (snd p)) (filter (fun p => isgated (fst p)) (combine gs (ft_reps t)))) (before isgated gs f) in
         same_chans v' (scaled (gate (nth j (channels_where isgate gs (fields (ft_reps t) (gt_data x))) (fun _ => 0)) (nth j b 0)) v)) /\
    (* gates, if they are kept *)
    (forall f, drop = false -> nth_error gs f = Some GATES -> let j := before isgate gs f in
       nth_error (fields (ft_reps t) (gt_data y)) f = Some [gate (nth j (channels_where isgate gs (fields (ft_reps t) (gt_data x))) (fun _ => 0)) (nth j b 0)]).
Proof.
  intros t gates drop bias m gs b junk x TR MK GL SP LB TX. apply (gated1_fieldwise fits gs_eqb rp_eqb is_triv TR t gates drop bias m gs b junk x); auto.
  unfold gated1_make in MK. apply rbind_ok in MK as (gs' & E & _). destruct gates as [l|]; cbn [gate_labels] in *; rewrite E; apply assert_ok in E as [_ E]; injection E as <-; subst gs; reflexivity.
Qed.

(** ConcatenatedNonLinearity *)
Theorem C41_concatenated : forall elements build (t : ftype) fn m (x : gtensor),
  (forall name s M nl r, build name s M nl = Ok r -> rp_size r = s /\ forall g, In g elements -> meq s s (rp_mat r g) (M g)) ->
  conc_make fits elements build t fn = Ok m -> typed gs_eqb rp_eqb t x ->
  exists y, conc_forward gs_eqb rp_eqb m x = Ok y /\ gt_type y = cc_out m /\
    fieldwise (ft_reps t) (ft_reps (cc_out m)) (fun _ => conc_act (cc_fun m)) (gt_data x) (gt_data y).
Proof. intros elements build t fn m x B MK TX. exact (conc_fieldwise fits gs_eqb rp_eqb elements build B t fn m x MK TX). Qed.

(** pools: the channel f of the result *)
Lemma firstn_repeat' {A} (a : A) : forall f n, (f <= n)%nat -> firstn f (repeat a n) = repeat a f.
Proof. induction f as [|f IH]; intros [|n] H; try lia; cbn; auto. f_equal. apply IH. lia. Qed.
Lemma one_channel (t : ftype) r (n : nat) (x y : list chan) red : rp_size r = 1%nat -> n = length (ft_reps t) ->
  fieldwise (ft_reps t) (repeat r n) red x y -> (forall f b, length (red f b) = 1%nat) -> length y = n /\
  forall f b, nth_error (fields (ft_reps t) x) f = Some b -> forall p, val y f p = val (red f b) 0 p.
Proof.
  intros R1 -> (_ & L & F) LR. set (n := length (ft_reps t)) in *.
  assert (OFF : forall k, nsum (map rp_size (repeat r k)) = k).
  { intros k. induction k as [|k IH]; [reflexivity|]. cbn [repeat map]. change (nsum (rp_size r :: map rp_size (repeat r k))) with (rp_size r + nsum (map rp_size (repeat r k)))%nat. lia. }
  rewrite OFF in L. split; [auto|]. intros f b Hb p. pose proof (fields_len _ _ _ _ Hb) as Hf. destruct (F f b Hb) as (b' & E & [S1 S2]).
  assert (Hr : nth_error (repeat r n) f = Some r) by (apply nth_error_repeat; auto).
  destruct (fields_val (repeat r n) y f r b' ltac:(rewrite OFF; auto) Hr E) as [V1 V2]. rewrite R1 in *. rewrite <- S2 by lia. rewrite V2 by lia. f_equal.
  unfold field_offset. rewrite firstn_repeat' by lia. rewrite OFF. lia.
Qed.
Theorem C41_group_pool : forall (t : ftype) m junk (x : gtensor), rp_size (trivial_repr (ft_gs t)) = 1%nat ->
  gpool_make fits trivial_repr t = Ok m -> size_pos t -> typed gs_eqb rp_eqb t x ->
  exists y, gpool_forward gs_eqb rp_eqb junk m x = Ok y /\ gt_type y = MkFT (ft_gs t) (repeat (trivial_repr (ft_gs t)) (length (ft_reps t))) /\
    length (gt_data y) = length (ft_reps t) /\
    forall f b, nth_error (fields (ft_reps t) (gt_data x)) f = Some b -> forall p, is_max b p (val (gt_data y) f p).
Proof.
  intros t m junk x T1 MK SP TX. unfold gpool_make in MK. apply assert_ok in MK as [_ MK].
  destruct (pool_fieldwise fits gs_eqb rp_eqb trivial_repr t m vmax junk x T1 MK SP TX) as (y & F & T & W). exists y. split; [exact F|]. split; [exact T|].
  rewrite T in W. cbn [ft_reps] in W. destruct (one_channel t _ _ _ _ _ T1 eq_refl W) as [L V]; [reflexivity|]. split; [auto|]. intros f b Hb p. rewrite (V f b Hb).
  apply vmax_spec. pose proof (fields_len _ _ _ _ Hb) as Hf. destruct (nth_error (ft_reps t) f) as [r|] eqn:Hr; [|apply nth_error_None in Hr; lia].
  destruct (fields_val _ _ _ _ _ (proj2 TX) Hr Hb) as [LB _]. intros ->. cbn in LB. assert (0 < rp_size r)%nat by (apply SP; eapply nth_error_In; eauto). lia.
Qed.
Theorem C41_norm_pool : forall (t : ftype) m junk (x : gtensor), rp_size (trivial_repr (ft_gs t)) = 1%nat ->
  npool_make fits trivial_repr t = Ok m -> size_pos t -> typed gs_eqb rp_eqb t x ->
  exists y, npool_forward gs_eqb rp_eqb junk m x = Ok y /\ gt_type y = MkFT (ft_gs t) (repeat (trivial_repr (ft_gs t)) (length (ft_reps t))) /\
    length (gt_data y) = length (ft_reps t) /\
    forall f b, nth_error (fields (ft_reps t) (gt_data x)) f = Some b -> forall p, val (gt_data y) f p = norm_of b p.
Proof.
  intros t m junk x T1 MK SP TX.
  destruct (pool_fieldwise fits gs_eqb rp_eqb trivial_repr t m vnorm junk x T1 MK SP TX) as (y & F & T & W). exists y. split; [exact F|]. split; [exact T|].
  rewrite T in W. cbn [ft_reps] in W. destruct (one_channel t _ _ _ _ _ T1 eq_refl W) as [L V]; [reflexivity|]. split; [auto|]. intros f b Hb p. rewrite (V f b Hb).
  unfold val. cbn [nth]. rewrite vnorm_spec. reflexivity.
Qed.
Theorem C41_induced_norm_pool : forall (t : ftype) m junk (x : gtensor), rp_size (trivial_repr (ft_gs t)) = 1%nat ->
  ipool_make fits trivial_repr t = Ok m -> size_pos t -> typed gs_eqb rp_eqb t x ->
  exists y ids, ipool_forward gs_eqb rp_eqb junk m x = Ok y /\ gt_type y = MkFT (ft_gs t) (repeat (trivial_repr (ft_gs t)) (length (ft_reps t))) /\
    rmap (field_id "induced_norm") (ft_reps t) = Ok ids /\ length (gt_data y) = length (ft_reps t) /\
    forall f b, nth_error (fields (ft_reps t) (gt_data x)) f = Some b -> forall p,
      let s := snd (nth f ids (0, 0)%nat) in is_max (map norm_of (cut (repeat s (length b / s)) b)) p (val (gt_data y) f p).
Proof.
  intros t m junk x T1 MK SP TX.
  destruct (ipool_fieldwise fits gs_eqb rp_eqb trivial_repr t m junk x T1 MK SP TX) as (y & F & T & ID & W). exists y, (ip_ids m). split; [exact F|]. split; [exact T|]. split; [auto|].
  rewrite T in W. cbn [ft_reps] in W. destruct (one_channel t _ _ _ _ _ T1 eq_refl W) as [L V]; [reflexivity|]. split; [auto|]. intros f b Hb p s. rewrite (V f b Hb).
  apply vmax_spec. pose proof (fields_len _ _ _ _ Hb) as Hf. destruct (nth_error (ft_reps t) f) as [r|] eqn:Hr; [|apply nth_error_None in Hr; lia].
  destruct (fields_val _ _ _ _ _ (proj2 TX) Hr Hb) as [LB _]. assert (0 < rp_size r)%nat by (apply SP; eapply nth_error_In; eauto).
  destruct (ids_nth _ _ _ _ _ ID Hr) as [I1 I2]. fold s in I1 |- *. destruct (field_id_ok _ _ _ I1) as (J1 & J2 & J3). fold s in J2, J3. rewrite LB.
  intros E. apply map_eq_nil in E. destruct (rp_size r / s)%nat eqn:D; [|discriminate]. apply Nat.div_small_iff in D; [|exact J2]. rewrite J1, Nat.mod_small in J3 by auto. lia.
Qed.
(** VectorFieldNonLinearity *)
Theorem C41_vectorfield : forall argmax order r1 (t : ftype) m (x : gtensor), argmax_ok argmax ->
  vfield_make fits order (Some r1) t = Ok m -> rp_size r1 = 2%nat -> typed gs_eqb rp_eqb t x ->
  exists y, vfield_forward gs_eqb rp_eqb argmax m x = Ok y /\ gt_type y = MkFT (ft_gs t) (repeat r1 (length (ft_reps t))) /\
    length (gt_data y) = (2 * length (ft_reps t))%nat /\
    forall f b, nth_error (fields (ft_reps t) (gt_data x)) f = Some b ->
      exists v, nth_error (fields (ft_reps (gt_type y)) (gt_data y)) f = Some v /\ vector_act order b v.
Proof.
  intros argmax order r1 t m x AM MK R1 TX. destruct (vfield_fieldwise fits gs_eqb rp_eqb argmax order r1 t m x MK R1 TX) as (E1 & E2 & SZ & O1 & y & F & T & W).
  exists y. split; [auto|]. split; [congruence|]. rewrite E2 in *. rewrite T. destruct W as (_ & LY & W). cbn [ft_reps] in *.
  split. { rewrite LY. clear -R1. induction (length (ft_reps t)) as [|n IH]; [reflexivity|]. cbn [repeat map]. change (nsum (rp_size r1 :: map rp_size (repeat r1 n))) with (rp_size r1 + nsum (map rp_size (repeat r1 n)))%nat. lia. }
  intros f b Hb. destruct (W f b Hb) as (v & Ev & [S1 S2]). exists v. split; [auto|]. split; [exact S1|]. intros p mx Mx.
  pose proof (fields_len _ _ _ _ Hb) as Hf. destruct (nth_error (ft_reps t) f) as [r|] eqn:Hr; [|apply nth_error_None in Hr; lia].
  destruct (fields_val _ _ _ _ _ (proj2 TX) Hr Hb) as [LB _]. rewrite (SZ r (nth_error_In _ _ Hr)) in LB.
  assert (NE : b <> []) by (intros ->; cbn in LB; lia). destruct (argmax_max argmax b p AM NE) as (A1 & A2 & A3).
  assert (EM : vmax b p = mx) by (eapply is_max_unique; [apply vmax_spec; auto|auto]).
  rewrite !S2 by (rewrite S1; cbn; lia). unfold vec_pair, val at 1 2 4 5; cbn [nth]. rewrite EM. unfold relu. split.
  - intros H. assert (Rmax 0 mx = 0) as -> by (unfold Rmax; destruct (Rle_dec 0 mx); lra). split; ring.
  - intros H. assert (Rmax 0 mx = mx) as -> by (unfold Rmax; destruct (Rle_dec 0 mx); lra). eexists. split; [exact A1|]. split; [congruence|]. split; ring.
Qed.
End C41.
Print Assumptions C41_norm.
Print Assumptions C41_induced_norm.
Print Assumptions C41_gated2.
Print Assumptions C41_gated1.
Print Assumptions C41_concatenated.
Print Assumptions C41_group_pool.
Print Assumptions C41_norm_pool.
Print Assumptions C41_induced_norm_pool.
Print Assumptions C41_vectorfield.
