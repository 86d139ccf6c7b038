(** C64: field types (and representations) that compare equal transform data in the same way, up to the tolerance of the comparison. *)
From Coq Require Import Reals ZArith String List Bool Lia Lra.
From Verif Require Import Base Spec Model_Groups Model_Rep Proofs_Rep Proofs_Groups Proofs_Irreps Proofs_Restrict Model_FieldType Proofs_FieldType Model_GSpace Proofs_GSpace Model_Tensor Model_Conv Spec_Conv Proofs_Conv4 Proofs_Conv5
  Proofs_Net Proofs_Tensor Proofs_Rep Proofs_Export Model_Equality Spec_Equality Proofs_Equality.
Import ListNotations.
Open Scope R_scope.

(** Representations that compare equal have the same name, size, irreps and supported non-linearities, and, when their changes of basis are
    orthogonal, matrices that differ by at most [slack] in every entry.  Missing: changes of basis that are not orthogonal (refuted below). *)
Theorem C64_representations_partial {G} (sp : space G) isrep (a b : rep G) : planar_space G sp isrep -> isrep a -> isrep b ->
  rep_equal (sp_group (sp_obj sp)) (sp_group (sp_obj sp)) a b = Ok true ->
  same_header a b /\
  (orthonormal a -> orthonormal b -> forall e g, fg_is_element (sp_group (sp_obj sp)) e = true -> sp_prj sp e = Some g ->
     within (slack (rp_size a)) (rp_size a) (rp_mat a g) (rp_mat b g)).
Proof. intros PS Ia Ib E. exact (rep_equal_close sp isrep _ _ a b PS Ia Ib E). Qed.
Print Assumptions C64_representations_partial.

Definition good_type {G} (sp : space G) (isrep : rep G -> Prop) (t : ctype G) : Prop :=
  ft_gs t = sp /\ ft_reps t <> [] /\ Forall (fun r => isrep r /\ orthonormal r) (ft_reps t).

(** Field types that compare equal have the same fields, and a tensor transformed with one or the other differs by at most [slack] times
    the sum of the absolute values of the channels at the same point. *)
Theorem C64_types_partial {G} (sp : space G) isrep (t u : ctype G) : planar_space G sp isrep -> good_type sp isrep t -> good_type sp isrep u -> types_equal t u = Ok true ->
  Forall2 same_header (ft_reps t) (ft_reps u) /\ ct_size t = ct_size u /\ type_repr t = type_repr u /\
  forall X (x : X -> vec) e g, fg_is_element (sp_group (sp_obj sp)) e = true -> sp_prj sp e = Some g ->
    exists y z, transform_fibers (ft_reps t) g x = Ok y /\ transform_fibers (ft_reps u) g x = Ok z /\
      forall p i, (i < ct_size t)%nat -> Rabs (y p i - z p i) <= slack (ct_size t) * rsum (ct_size t) (fun k => Rabs (x p k)).
Proof.
  intros PS (St & Nt & Ft) (Su & Nu & Fu) E. unfold types_equal in E. destruct (space_eqb (ft_gs t) (ft_gs u)); [|discriminate]. apply list_equal_true in E.
  assert (F2 : Forall2 (fun a b => same_header a b /\ forall e g, fg_is_element (sp_group (sp_obj sp)) e = true -> sp_prj sp e = Some g -> within (slack (rp_size a)) (rp_size a) (rp_mat a g) (rp_mat b g)) (ft_reps t) (ft_reps u)).
  { clear Nt Nu St Su. revert Ft Fu. induction E as [|a b l l' Eab _ IH]; intros Ft Fu; constructor; inversion Ft as [|? ? [Ia Oa] Ft']; inversion Fu as [|? ? [Ib Ob] Fu']; subst; auto.
    destruct (rep_equal_close sp isrep _ _ a b PS Ia Ib Eab) as [H1 H2]. split; [exact H1|]. intros e g He Hg. exact (H2 Oa Ob e g He Hg). }
  clear E Ft Fu.
  assert (SZ : ct_size t = ct_size u).
  { unfold ct_size. clear -F2. induction F2 as [|a b l l' [(_ & H & _) _] _ IH]; [reflexivity|]. unfold nsum in *. cbn [map fold_right]. congruence. }
  split; [clear -F2; induction F2 as [|a b l l' [H _] _ IH]; constructor; auto|]. split; [exact SZ|]. split.
  { unfold type_repr. rewrite St, Su. f_equal. clear -F2. induction F2 as [|a b l l' [(H & _) _] _ IH]; cbn [map]; congruence. }
  intros X x e g He Hg. unfold transform_fibers, type_representation.
  destruct (directsum (ft_reps t) (Some "FiberRepresentation"%string)) as [rt|] eqn:Dt; [|unfold directsum in Dt; destruct (ft_reps t); [congruence|discriminate]].
  destruct (directsum (ft_reps u) (Some "FiberRepresentation"%string)) as [ru|] eqn:Du; [|unfold directsum in Du; destruct (ft_reps u); [congruence|discriminate]].
  cbn [rbind]. do 2 eexists. split; [reflexivity|]. split; [reflexivity|]. intros p i Hi.
  assert (S1 := ds_size _ _ _ Dt). assert (S2 := ds_size _ _ _ Du). fold (ct_size t) in S1. fold (ct_size u) in S2. rewrite <- SZ in S2.
  assert (M1 := directsum_mat _ _ _ g Dt). assert (M2 := directsum_mat _ _ _ g Du). fold (ct_size t) in M1. fold (ct_size u) in M2. rewrite <- SZ in M2. rewrite S1, S2.
  assert (D0 : 0 <= slack (ct_size t)) by (unfold slack; pose proof (sqrt_pos (INR (ct_size t))); lra).
  apply mvec_within; auto. intros a b Ha Hb. rewrite (M1 a b Ha Hb), (M2 a b Ha Hb).
  assert (LE : forall n, (n <= ct_size t)%nat -> slack n <= slack (ct_size t)) by (intros n Hn; unfold slack; assert (sqrt (INR n) <= sqrt (INR (ct_size t))) by (apply sqrt_le_1_alt, le_INR; auto); lra).
  assert (BS : bsize (map (fun s => (rp_size s, rp_mat s g)) (ft_reps t)) = ct_size t) by (unfold bsize, ct_size; rewrite map_map; reflexivity).
  apply bdiag_within; auto; [|rewrite BS; auto|rewrite BS; auto].
  assert (IN : forall r, In r (ft_reps t) -> (rp_size r <= ct_size t)%nat).
  { intros r Hr. unfold ct_size, nsum. clear -Hr. induction (ft_reps t) as [|s l IH]; [destruct Hr|]. cbn [map fold_right]. destruct Hr as [->|Hr]; [lia|specialize (IH Hr); lia]. }
  clear -F2 IN LE He Hg. revert IN. induction F2 as [|r s l l' [(_ & H & _) W] _ IH]; intros IN; cbn [map]; constructor.
  - cbn [fst snd]. split; [exact H|]. eapply within_mono; [|exact (W e g He Hg)]. apply LE, IN. left. reflexivity.
  - apply IH. intros q Hq. apply IN. right. exact Hq.
Qed.
Print Assumptions C64_types_partial.

(** Exactly equal representations compare equal in both directions and have the same hash, as do the field types made of them; a
    comparison is never True for different groups or sizes. *)
Theorem C64_exact {G} :
  (forall gr (a b : rep G), rp_name a = rp_name b -> rp_irreps a = rp_irreps b -> meq (rp_size a) (rp_size a) (rp_cob a) (rp_cob b) ->
     (forall s, In s (rp_nonlin a) <-> In s (rp_nonlin b)) ->
     rep_equal gr gr a b = Ok true /\ rep_equal gr gr b a = Ok true /\ rep_repr gr a = rep_repr gr b) /\
  (forall t : ctype G, types_equal t t = Ok true) /\
  (forall gr gr' (a b : rep G) c, rep_equal gr gr' a b = Ok c -> (gr <> gr' \/ rp_size a <> rp_size b) -> c = false).
Proof.
  assert (EX : forall gr (a b : rep G), rp_name a = rp_name b -> rp_irreps a = rp_irreps b -> meq (rp_size a) (rp_size a) (rp_cob a) (rp_cob b) ->
     (forall s, In s (rp_nonlin a) <-> In s (rp_nonlin b)) -> rep_equal gr gr a b = Ok true).
  { intros gr a b H1 H2 H3 H4. apply rep_equal_true. split; [exact H1|]. split; [apply fg_eqb_refl|]. split; [|split; [|exact H4]].
    - rewrite H2. clear. induction (rp_irreps b) as [|i l IH]; [reflexivity|]. cbn [list_eqb]. rewrite IH. unfold irrep_same. rewrite !Z.eqb_refl, Nat.eqb_refl. reflexivity.
    - intros i j Hi Hj. rewrite (H3 i j Hi Hj), Rminus_diag_eq, Rabs_R0 by reflexivity. pose proof (Rabs_pos (rp_cob b i j)). lra. }
  split; [|split].
  - intros gr a b H1 H2 H3 H4. assert (S : rp_size a = rp_size b) by (unfold rp_size; rewrite H2; reflexivity). split; [apply EX; auto|]. split.
    + apply EX; auto; [rewrite <- S; symmetry; exact H3|intros s; symmetry; apply H4].
    + unfold rep_repr. rewrite H1, H2, <- S. f_equal. apply rsum_ext. intros i Hi. apply rsum_ext. intros j Hj. apply H3; auto.
  - intros t. unfold types_equal. replace (space_eqb (ft_gs t) (ft_gs t)) with true by (unfold space_eqb, sp_eqb; destruct (sp_obj (ft_gs t)); symmetry; apply fg_eqb_refl).
    apply list_equal_true. induction (ft_reps t) as [|r l IH]; constructor; auto. apply EX; try reflexivity.
  - intros gr gr' a b c E N. destruct c; [|reflexivity]. exfalso. apply rep_equal_true in E as (_ & E1 & E2 & _). apply fg_eqb_eq in E1. apply irrep_same_size in E2. destruct N as [N|N]; [apply N; exact E1|apply N; exact E2].
Qed.
Print Assumptions C64_exact.

(** ** counterexamples *)
Definition c2_triv : irrep Z := MkIrrep 1 1 0 0 (fun _ => mid) ["pointwise"; "gate"; "norm"; "gated"; "concatenated"]%string.
Definition c2_sign : irrep Z := MkIrrep 1 1 0 1 (fun e => mat1 (cos (IZR 1 * IZR e * (2 * PI / IZR 2)))) ["norm"; "gated"; "concatenated"]%string.
Lemma c2_triv_ok : cyc_irrep 2 0 = Ok c2_triv.
Proof. reflexivity. Qed.
Lemma c2_sign_ok : cyc_irrep 2 1 = Ok c2_sign.
Proof. reflexivity. Qed.
(** n trivial fields in one representation, with any change of basis *)
Definition scaled (c : R) : rep Z := MkRep "rho" [c2_triv] (mat1 c) (mat1 (/ c)) [].
Lemma scaled_rep c : c <> 0 -> cyc_rep 2 (scaled c).
Proof.
  intros H. split; [|repeat constructor; exists 0%Z; exact c2_triv_ok]. unfold rep_accepted, rp_size, isizes, scaled, nsum. cbn [rp_irreps map fold_right ir_size c2_triv Nat.add rp_cob rp_inv].
  split; intros i j Hi Hj; replace i with 0%nat by lia; replace j with 0%nat by lia; unfold mmul, mat1, mid; cbn [rsum Nat.eqb]; field; exact H.
Qed.
Lemma scaled_equal c d : rep_equal (GC 2) (GC 2) (scaled c) (scaled d) = Ok (isclose c d).
Proof. unfold rep_equal, scaled, rp_size, isizes, nsum. cbn. unfold mat1. rewrite !andb_true_r. destruct (isclose c d); reflexivity. Qed.
Lemma close_yes a b : Rabs (a - b) <= 1 / 100000000 + 1 / 100000 * Rabs b -> isclose a b = true.
Proof. apply isclose_iff. Qed.
Lemma close_no a b : 1 / 100000000 + 1 / 100000 * Rabs b < Rabs (a - b) -> isclose a b = false.
Proof. intros H. destruct (isclose a b) eqn:E; [|reflexivity]. apply isclose_iff in E. lra. Qed.
Ltac pos_abs := repeat match goal with |- context [Rabs ?x] => (rewrite (Rabs_right x) by lra) || (rewrite (Rabs_left x) by lra) end; lra.

(** == between representations is neither symmetric nor transitive, and equal representations need not have the same hash. *)
Theorem C64_equivalence_refuted :
  (exists a b : rep Z, cyc_rep 2 a /\ cyc_rep 2 b /\ rep_equal (GC 2) (GC 2) a b = Ok true /\ rep_equal (GC 2) (GC 2) b a = Ok false) /\
  (exists a b c : rep Z, cyc_rep 2 a /\ cyc_rep 2 b /\ cyc_rep 2 c /\ rep_equal (GC 2) (GC 2) a b = Ok true /\ rep_equal (GC 2) (GC 2) b c = Ok true /\ rep_equal (GC 2) (GC 2) a c = Ok false) /\
  (exists a b : rep Z, cyc_rep 2 a /\ cyc_rep 2 b /\ rep_equal (GC 2) (GC 2) a b = Ok true /\ rep_equal (GC 2) (GC 2) b a = Ok true /\ rep_repr (GC 2) a <> rep_repr (GC 2) b).
Proof.
  split; [|split].
  - exists (scaled (1 - 1001 / 100000000)), (scaled 1). split; [apply scaled_rep; lra|]. split; [apply scaled_rep; lra|]. rewrite !scaled_equal. split; f_equal.
    + apply close_yes. pos_abs.
    + apply close_no. pos_abs.
  - exists (scaled (1 + 2 / 100000)), (scaled (1 + 1 / 100000)), (scaled 1). split; [apply scaled_rep; lra|]. split; [apply scaled_rep; lra|]. split; [apply scaled_rep; lra|].
    rewrite !scaled_equal. split; [|split]; f_equal; [apply close_yes|apply close_yes|apply close_no]; pos_abs.
  - exists (scaled (1 + 1 / 100000)), (scaled 1). split; [apply scaled_rep; lra|]. split; [apply scaled_rep; lra|]. rewrite !scaled_equal. split; [f_equal; apply close_yes; pos_abs|]. split; [f_equal; apply close_yes; pos_abs|].
    unfold rep_repr, rp_size, isizes, nsum, scaled. cbn [rp_irreps rp_cob rp_name map fold_right ir_size c2_triv Nat.add length rsum]. unfold mat1. intros E. apply (f_equal snd) in E. cbn [snd] in E. lra.
Qed.
Print Assumptions C64_equivalence_refuted.

Definition plain_sum (n : nat) : rep Z := MkRep "rho" (repeat c2_triv n) mid mid [].
(** Comparing two representations of the same name with different sizes raises an exception, unless one of them has size 1; so does
    comparing field types made of them. *)
Theorem C64_raises_refuted :
  exists a b : rep Z, cyc_rep 2 a /\ cyc_rep 2 b /\ orthonormal a /\ orthonormal b /\ rep_equal (GC 2) (GC 2) a b = Err "ValueError" /\
    types_equal (MkFT (space_CN 2) [a]) (MkFT (space_CN 2) [b]) = Err "ValueError".
Proof.
  assert (OK : forall n, cyc_rep 2 (plain_sum n)).
  { intros n. split; [apply inverse_pair_mid|]. unfold plain_sum. cbn [rp_irreps]. apply Forall_forall. intros i Hi. apply repeat_spec in Hi. subst i. exists 0%Z. exact c2_triv_ok. }
  exists (plain_sum 2), (plain_sum 3). split; [apply OK|]. split; [apply OK|]. split; [apply mid_orthogonal|]. split; [apply mid_orthogonal|]. split; reflexivity.
Qed.
Print Assumptions C64_raises_refuted.

(** Without orthogonality, representations that compare equal can have completely different matrices: here 2000001 against -1999999. *)
Definition skew (d : R) : rep Z := MkRep "rho" [c2_triv; c2_sign] (mat2 1 1 1 (1 + d)) (mat2 ((1 + d) / d) (- / d) (- / d) (/ d)) [].
Lemma lt2 i : (i < 2)%nat -> i = 0%nat \/ i = 1%nat.
Proof. lia. Qed.
Lemma skew_rep d : d <> 0 -> cyc_rep 2 (skew d).
Proof.
  intros H. split; [|repeat constructor; [exists 0%Z; exact c2_triv_ok|exists 1%Z; exact c2_sign_ok]].
  split; intros i j Hi Hj; change (i < 2)%nat in Hi; change (j < 2)%nat in Hj; destruct (lt2 i Hi) as [-> | ->], (lt2 j Hj) as [-> | ->]; unfold skew, rp_size, isizes, nsum, mmul, mid;
    cbn [rp_irreps rp_cob rp_inv map fold_right ir_size c2_triv c2_sign Nat.add rsum mat2 Nat.eqb]; field; exact H.
Qed.
Lemma skew_mat d : d <> 0 -> rp_mat (skew d) 1%Z 0%nat 0%nat = 2 / d + 1.
Proof.
  intros H. unfold rp_mat, skew, rp_size, isizes, nsum, mmul, blocks. cbn [rp_irreps rp_cob rp_inv map fold_right ir_size ir_mat c2_triv c2_sign Nat.add rsum mat2 bdiag Nat.ltb Nat.leb Nat.sub].
  unfold mat1, mid. cbn [Nat.eqb]. replace (IZR 1 * IZR 1 * (2 * PI / IZR 2)) with PI by field. rewrite cos_PI. field. exact H.
Qed.
Theorem C64_matrices_refuted :
  exists a b : rep Z, cyc_rep 2 a /\ cyc_rep 2 b /\ rep_equal (GC 2) (GC 2) a b = Ok true /\ rep_equal (GC 2) (GC 2) b a = Ok true /\
    rp_mat a 1%Z 0%nat 0%nat = 2000001 /\ rp_mat b 1%Z 0%nat 0%nat = - 1999999.
Proof.
  exists (skew (1 / 1000000)), (skew (- (1 / 1000000))). split; [apply skew_rep; lra|]. split; [apply skew_rep; lra|].
  assert (C : forall d d', Rabs d <= 1 / 1000000 -> Rabs d' <= 1 / 1000000 -> rep_equal (GC 2) (GC 2) (skew d) (skew d') = Ok true).
  { intros d d' Hd Hd'. apply rep_equal_true. split; [reflexivity|]. split; [reflexivity|]. split; [reflexivity|]. split; [|intros s; reflexivity].
    intros i j Hi Hj. change (i < 2)%nat in Hi. change (j < 2)%nat in Hj. assert (Bd : - (1 / 1000000) <= d <= 1 / 1000000) by (revert Hd; unfold Rabs; destruct (Rcase_abs d); lra).
    assert (Bd' : - (1 / 1000000) <= d' <= 1 / 1000000) by (revert Hd'; unfold Rabs; destruct (Rcase_abs d'); lra). clear Hd Hd'. destruct (lt2 i Hi) as [-> | ->], (lt2 j Hj) as [-> | ->]; cbn [skew rp_cob mat2];
      unfold Rabs; repeat destruct (Rcase_abs _); lra. }
  split; [apply C; unfold Rabs; repeat destruct (Rcase_abs _); lra|]. split; [apply C; unfold Rabs; repeat destruct (Rcase_abs _); lra|]. rewrite !skew_mat by lra. split; field.
Qed.
Print Assumptions C64_matrices_refuted.

(** ** an example: a representation and the same one in a basis rotated by a tiny angle *)
Definition tiny (t : R) : rep Z :=
  MkRep "rho" [c2_triv; c2_sign] (mat2 ((1 - t * t) / (1 + t * t)) (- (2 * t) / (1 + t * t)) (2 * t / (1 + t * t)) ((1 - t * t) / (1 + t * t)))
    (mat2 ((1 - t * t) / (1 + t * t)) (2 * t / (1 + t * t)) (- (2 * t) / (1 + t * t)) ((1 - t * t) / (1 + t * t))) ["norm"]%string.
Lemma tiny_orth t : orthonormal (tiny t) /\ cyc_rep 2 (tiny t).
Proof.
  assert (H : 1 + t * t <> 0) by nra. split; [|split; [|repeat constructor; [exists 0%Z; exact c2_triv_ok|exists 1%Z; exact c2_sign_ok]]];
  (split; intros i j Hi Hj; change (i < 2)%nat in Hi; change (j < 2)%nat in Hj; destruct (lt2 i Hi) as [-> | ->], (lt2 j Hj) as [-> | ->]; unfold tiny, rp_size, isizes, nsum, mmul, mid, mtr;
    cbn [rp_irreps rp_cob rp_inv map fold_right ir_size c2_triv c2_sign Nat.add rsum mat2 Nat.eqb]; field; exact H).
Qed.
Example C64_ex : let a := tiny (1 / 1000000000) in let b := tiny 0 in let t := MkFT (space_CN 2) [a; b] in let u := MkFT (space_CN 2) [b; b] in
  planar_space Z (space_CN 2) (cyc_rep 2) /\ good_type (space_CN 2) (cyc_rep 2) t /\ good_type (space_CN 2) (cyc_rep 2) u /\ types_equal t u = Ok true /\
  rp_mat a 1%Z 0%nat 1%nat <> rp_mat b 1%Z 0%nat 1%nat.
Proof.
  intros a b t u. split; [apply PS_CN; lia|]. assert (GT : forall l : list (rep Z), l <> [] -> Forall (fun r => exists t, r = tiny t) l -> good_type (space_CN 2) (cyc_rep 2) (MkFT (space_CN 2) l)).
  { intros l N F. split; [reflexivity|]. split; [exact N|]. eapply Forall_impl; [|exact F]. cbv beta. intros r [s ->]. destruct (tiny_orth s). tauto. }
  split; [apply GT; [discriminate|apply Forall_forall; intros r [<-|[<-|[]]]; eexists; reflexivity]|]. split; [apply GT; [discriminate|apply Forall_forall; intros r [<-|[<-|[]]]; eexists; reflexivity]|]. split.
  - unfold types_equal. cbn [t u ft_gs ft_reps]. change (space_eqb (space_CN 2) (space_CN 2)) with true. cbv iota. apply list_equal_true. constructor; [|constructor; [|constructor]].
    + apply rep_equal_true. split; [reflexivity|]. split; [reflexivity|]. split; [reflexivity|]. split; [|intros s; reflexivity].
      intros i j Hi Hj. change (i < 2)%nat in Hi. change (j < 2)%nat in Hj. destruct (lt2 i Hi) as [-> | ->], (lt2 j Hj) as [-> | ->]; cbn [a b tiny rp_cob mat2]; unfold Rabs; repeat destruct (Rcase_abs _); lra.
    + apply (proj1 C64_exact); try reflexivity.
  - unfold a, b, rp_mat, tiny, rp_size, isizes, nsum, mmul, blocks. cbn [rp_irreps rp_cob rp_inv map fold_right ir_size ir_mat c2_triv c2_sign Nat.add rsum mat2 bdiag Nat.ltb Nat.leb Nat.sub].
    unfold mat1, mid. cbn [Nat.eqb]. replace (IZR 1 * IZR 1 * (2 * PI / IZR 2)) with PI by field. rewrite cos_PI. lra.
Qed.
