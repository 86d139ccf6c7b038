(** Examples of R2Conv modules, default rings. *)
From Coq Require Import Reals ZArith String List Bool Lia Lra.
From Verif Require Import Base Spec Model_Groups Model_Rep Proofs_Rep Proofs_Restrict Model_FieldType Proofs_FieldType Model_Tensor Proofs_Tensor Model_GSpace Spec_GSpace Proofs_GSpace
  Model_Kernels Spec_Kernels Proofs_Kernels5 Model_Utils Proofs_Utils Model_Expansion Proofs_Expansion Proofs_Expansion2 Model_Conv Spec_Conv Proofs_Conv Proofs_Conv2 Proofs_Conv4 Proofs_Conv5.
Import ListNotations.
Open Scope R_scope.

(** ** the default rings are distinct *)
Lemma nodup_map_inj {A B} (f : A -> B) l : (forall x y, In x l -> In y l -> f x = f y -> x = y) -> NoDup l -> NoDup (map f l).
Proof.
  induction l as [|a l IH]; cbn; intros H N; [constructor|]. inversion N; subst. constructor.
  - intros E. apply in_map_iff in E as [x [E1 E2]]. rewrite <- (H a x) in E2; auto; congruence.
  - apply IH; auto.
Qed.
Lemma default_rings_nodup k dil : (0 < dil)%nat -> NoDup (map (fun r => r * INR dil) (linspace0 (INR ((k - 1) / 2)) ((k + 1) / 2))).
Proof.
  intros Hd. unfold linspace0. rewrite map_map. apply nodup_map_inj; [|apply seq_NoDup]. intros x y Hx Hy E. apply in_seq in Hx, Hy.
  apply Rmult_eq_reg_r in E; [|apply not_0_INR; lia].
  set (n := ((k + 1) / 2)%nat) in *. destruct n as [|[|n']] eqn:En; [lia|lia|].
  assert (Q : ((k - 1) / 2 = S n')%nat). { unfold n in En. replace (k + 1)%nat with (k - 1 + 1 * 2)%nat in En by (destruct k; [cbn in En; discriminate|lia]). rewrite Nat.div_add in En by lia. lia. }
  rewrite Q in E. replace (INR (S (S n')) - 1) with (INR (S n')) in E by (rewrite (S_INR (S n')); ring).
  assert (INR (S n') <> 0) by (apply not_0_INR; lia).
  unfold Rdiv in E. rewrite !Rmult_assoc, !Rinv_r, !Rmult_1_r in E by auto. apply INR_eq; auto.
Qed.

Lemma rings_of k fco rings sigma dil bf keep rgs sig maxf : compute_basis_params k fco rings sigma dil bf = Ok (keep, rgs, sig, maxf) ->
  rgs = match rings with Some l => l | None => map (fun r => r * INR dil) (linspace0 (INR ((k - 1) / 2)) ((k + 1) / 2)) end.
Proof.
  unfold compute_basis_params. intros H. apply rbind_ok in H as [mr [_ H]]. cbv zeta in H. apply assert_ok in H as [_ H].
  apply rbind_ok in H as [M [_ H]]. injection H as _ H _ _. auto.
Qed.

(** ** a module exists when the basis of the pair is not empty *)
Lemma single_block_ok {At} no ni S (shape0 : At -> nat) keep basis e : In e basis -> keep (fst e) = true -> (1 <= shape0 (fst e))%nat ->
  INR (shape0 (fst e)) <= sq_norm no ni S (snd e) -> exists sb, single_block no ni S shape0 keep basis = Ok sb /\ (0 < length (sb_els sb))%nat.
Proof.
  intros Hi Hk Hs Hn. unfold single_block.
  set (kept := filter (fun p => keep (fst p)) basis). assert (Hke : In e kept) by (apply filter_In; auto).
  destruct kept as [|k0 kept'] eqn:Ek; [destruct Hke|]. rewrite <- Ek in *. clear Ek k0 kept'.
  set (N := map (fun p => (fst p, normalize no ni S (INR (shape0 (fst p))) (snd p))) kept).
  set (big := filter (fun p => Rltb (1 / 100) (sq_norm no ni S (snd p))) N).
  assert (Hb : In (fst e, normalize no ni S (INR (shape0 (fst e))) (snd e)) big).
  { apply filter_In. split; [apply in_map_iff; exists e; auto|]. cbn [snd]. unfold Rltb. destruct (Rlt_dec _ _) as [|N0]; [auto|]. exfalso. apply N0.
    assert (P1 : 1 <= INR (shape0 (fst e))) by (apply (le_INR 1); auto). set (z := INR (shape0 (fst e))) in *. set (q := sq_norm no ni S (snd e)) in *.
    assert (P2 : 1 <= q / z) by (apply (Rmult_le_reg_r z); [lra|]; unfold Rdiv; rewrite Rmult_assoc, Rinv_l by lra; lra).
    unfold normalize. fold q. destruct (Rlt_dec (q / z) _); [lra|].
    assert (P3 : 1 <= sqrt (q / z)) by (rewrite <- sqrt_1; apply sqrt_le_1_alt; auto).
    destruct (Rlt_dec (sqrt (q / z)) _); [lra|].
    assert (Q : sq_norm no ni S (fun s o i => snd e s o i / sqrt (q / z)) = q / (q / z)).
    { change (q / (q / z)) with (sq_norm no ni S (snd e) * / (q / z)). unfold sq_norm. rewrite <- rsum_scal_r. apply rsum_ext. intros s _. rewrite <- rsum_scal_r. apply rsum_ext. intros o _. rewrite <- rsum_scal_r. apply rsum_ext. intros i _.
      assert (S2 := sqrt_sqrt (q / z) ltac:(lra)). rewrite <- S2 at 3. field. lra. }
    rewrite Q. replace (q / (q / z)) with z; [lra|]. field. split; lra. }
  destruct big as [|b0 big'] eqn:Eb; [destruct Hb|]. eexists. split; [reflexivity|]. cbn. lia.
Qed.

Lemma conv_make_ok {G} (sp spo : space G) (ri ro : rep G) k padding pad stride dil mode md bias sigma fco rings mo bf keep rgs sig maxf sb :
  space_eqb sp spo = true -> parse_padding padding = Ok pad -> parse_mode mode = Ok md -> compute_basis_params k fco rings sigma dil bf = Ok (keep, rgs, sig, maxf) ->
  pair_block (fun rin rout => sp_build sp rin rout rgs sig (Some maxf) mo) k dil keep ri ro = Ok sb -> (0 < length (sb_els sb))%nat -> (0 < rp_size ri)%nat -> (0 < rp_size ro)%nat ->
  exists m, r2conv_make (MkFT sp [ri]) (MkFT spo [ro]) k padding stride dil mode 1 bias sigma fco rings mo bf = Ok m /\
    be_blocks (cv_exp m) = [((rp_name ri, rp_name ro), sb)].
Proof.
  intros H1 H2 H3 H4 H5 H6 H7 H8. unfold r2conv_make. cbn [ft_gs ft_reps]. rewrite H1. cbn [assert_]. rewrite H2, H3. cbn [rbind group_in Nat.ltb Nat.leb]. rewrite H4. cbn [rbind].
  set (gen := pair_block (fun rin rout => sp_build sp rin rout rgs sig (Some maxf) mo) k dil keep) in *.
  unfold be_make. assert (E : build_blocks rp_name rep_eqb gen [ri] [ro] = Ok [((rp_name ri, rp_name ro), sb)]).
  { unfold build_blocks. cbn [set_of filter list_prod map app fold_left rbind fst snd]. rewrite H5. reflexivity. }
  cbv zeta. cbn [ft_reps ft_gs]. match goal with |- context [build_blocks rp_name rep_eqb ?g [ri] [ro]] => change (build_blocks rp_name rep_eqb g [ri] [ro]) with (build_blocks rp_name rep_eqb gen [ri] [ro]) end.
  rewrite E. cbn [rbind map fst sort_pairs fold_right insert_pair rmap]. unfold contiguous, indices, fields. cbn [map label_indices fst snd].
  rewrite !String.eqb_refl, !app_nil_r.
  assert (C : forall n, (0 < n)%nat -> exists c, check_consecutive_numbers (map Z.of_nat (seq 0 n)) = Ok c).
  { intros n Hn. unfold check_consecutive_numbers. destruct n as [|n]; [lia|]. cbn [seq map].
    match goal with |- context [forallb ?f ?l] => assert (F : forallb f l = true) end.
    { apply forallb_forall. intros x Hx. change (In x (map Z.of_nat (seq 0 (S n)))) in Hx. apply in_map_iff in Hx as [y [<- _]]. apply Z.leb_le. lia. }
    rewrite F. cbn [assert_]. eauto. }
  destruct (C _ H7) as [c1 ->]. destruct (C _ H8) as [c2 ->]. cbn [rbind].
  match goal with |- context [(?d =? 0)%nat] => assert (D : (d =? 0)%nat = false) end.
  { apply Nat.eqb_neq. unfold be_dimension. cbn [be_ids concat map]. unfold basis_ids. cbn [enumerate combine length seq map concat fst snd]. unfold key_eqb at 1. cbn [fst snd]. rewrite !String.eqb_refl. cbn [andb kget]. unfold key_eqb. cbn [fst snd]. rewrite !String.eqb_refl. cbn [andb]. destruct (sb_els sb); [cbn in H6; lia|]. cbn. lia. }
  rewrite D. eexists. split; [reflexivity|]. reflexivity.
Qed.

(** ** maximum radius *)
Lemma fold_max_ge l : forall x, x <= fold_left Rmax l x /\ forall y, In y l -> y <= fold_left Rmax l x.
Proof.
  induction l as [|a l IH]; intros x; cbn; [split; [lra|tauto]|]. destruct (IH (Rmax x a)) as [I1 I2]. assert (A := Rmax_l x a). assert (B := Rmax_r x a).
  split; [lra|]. intros y [<-|H]; [lra|auto].
Qed.
Lemma rmaximum_spec l : l <> [] -> exists M, rmaximum l = Ok M /\ forall y, In y l -> y <= M.
Proof. destruct l as [|x l]; [congruence|]. intros _. cbn. eexists. split; [reflexivity|]. destruct (fold_max_ge l x) as [A B]. intros y [<-|H]; auto. Qed.
Lemma py_trunc_Z z : (0 <= z)%Z -> py_trunc (IZR z) = z.
Proof.
  intros H. unfold py_trunc. destruct (Rle_dec 0 (IZR z)) as [_|N]; [|exfalso; apply N; apply IZR_le; auto].
  assert (B := base_Int_part (IZR z)). destruct B as [B1 B2]. apply le_IZR in B1.
  assert (B3 : IZR (z - 1) < IZR (Int_part (IZR z))) by (rewrite minus_IZR; lra). apply lt_IZR in B3. lia.
Qed.
Lemma params_ex (k dil : nat) (rings sig : list R) (F : Z) : (0 < k)%nat -> (0 <= F)%Z -> rings <> [] -> length rings = length sig ->
  (forall r, In r rings -> 0 <= r /\ exists s, (s < k * k)%nat /\ r <= radius_of (grid_point k dil s)) ->
  exists keep, compute_basis_params k (FcoFun (fun _ => IZR F)) (Some rings) (SigList sig) dil None = Ok (keep, rings, sig, F) /\
    forall a, (Z.abs (ka_freq a) <= F)%Z -> keep a = true.
Proof.
  intros Hk HF Hr Hl Hb. unfold compute_basis_params.
  destruct (rmaximum_spec (map radius_of (grid_coords k dil))) as [M [E HM]].
  { unfold grid_coords. rewrite map_map. destruct (k * k)%nat eqn:Q; [destruct k; [lia|discriminate]|discriminate]. }
  rewrite E. cbn [rbind].
  assert (A : forallb (fun r => (Rleb r M && Rleb 0 r)%bool) rings = true).
  { apply forallb_forall. intros r Hi. destruct (Hb r Hi) as [B1 [s [B2 B3]]].
    assert (B4 : radius_of (grid_point k dil s) <= M) by (apply HM; apply in_map; apply in_map_iff; exists s; split; [auto|apply in_seq; lia]).
    unfold Rleb. destruct (Rle_dec r M); [|lra]. destruct (Rle_dec 0 r); [|lra]. auto. }
  rewrite A. cbn [assert_]. cbv zeta.
  assert (R : rmaximum (map (fun _ : R => IZR F) rings) = Ok (IZR F)).
  { destruct rings as [|r rings]; [congruence|]. cbn. f_equal. clear. induction rings; cbn; auto. rewrite Rmax_left; auto; lra. }
  rewrite R. cbn [rbind]. eexists. split; [rewrite py_trunc_Z by auto; reflexivity|].
  intros a Ha. cbn. unfold Rleb. destruct (Rle_dec _ _) as [|N]; auto. exfalso. apply N. rewrite <- abs_IZR. apply IZR_le. auto.
Qed.
