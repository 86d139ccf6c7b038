(** DisentangleModule. *)
From Coq Require Import Reals ZArith String List Bool Lia Lra Permutation.
From Verif Require Import Base LinAlg Spec Spec_Fields Model_Groups Model_Rep Model_FieldType Model_Tensor Model_Utils Model_Modules Model_Fieldwise Model_BatchNorm Model_Disentangle Spec_Fieldwise Spec_Fieldwise2 Spec_Dropout Spec_BatchNorm
  Proofs_Rep Proofs_FieldType Proofs_FieldType2 Proofs_Tensor Proofs_Utils Proofs_Modules Proofs_Fieldwise Proofs_Fieldwise2 Proofs_Fieldwise3 Proofs_Fieldwise4 Proofs_Fieldwise5 Proofs_Fieldwise8 Proofs_Fieldwise11 Proofs_Dropout Proofs_BatchNorm2 Proofs_BatchNorm7 Proofs_BatchNorm8
  Proofs_Disentangle Proofs_Disentangle2 Proofs_Disentangle3.
Import ListNotations.
Open Scope R_scope.

Lemma find_nodup {V} (d : list (string * V)) k v : NoDup (map fst d) -> In (k, v) d -> find (fun p => String.eqb (fst p) k) d = Some (k, v).
Proof.
  induction d as [|[k' v'] d IH]; intros ND H; [destruct H|]. cbn [map fst] in ND. inversion ND as [|? ? N0 N1]; subst. cbn [find fst]. destruct H as [H|H].
  - injection H as -> ->. rewrite String.eqb_refl. auto.
  - destruct (String.eqb_spec k' k) as [->|]; [|auto]. exfalso. apply N0. apply in_map_iff. exists (k, v). auto.
Qed.
Lemma dis_get_ok {V} (d : list (string * V)) k v : NoDup (map fst d) -> In (k, v) d -> dis_get d k = Ok v.
Proof.
  intros ND H. unfold dis_get. rewrite (find_nodup (rev d) k v); [reflexivity| |rewrite <- in_rev; auto]. rewrite map_rev. apply NoDup_rev. auto.
Qed.

Lemma firstn_In' {A} n (l : list A) a : In a (firstn n l) -> In a l.
Proof. intros H. rewrite <- (firstn_skipn n l). apply in_or_app. auto. Qed.
Section Action.
Context {G X : Type}.
Notation chan := (X -> R).
Notation matrix reps g := (bdiag (map (fun q => (rp_size q, rp_mat q g)) reps)).
Lemma acts_bdiag (reps : list (rep G)) g (pi : X -> X) (d d' : list chan) : length d = nsum (map rp_size reps) -> acts reps g pi d d' ->
  forall i p, (i < length d)%nat -> val d' i p = mvec (length d) (matrix reps g) (fun j => val d j (pi p)) i.
Proof.
  intros L (L' & t' & T & V) i p Hi. rewrite V by auto. rewrite L in Hi. destruct (channel_in_field reps i Hi) as (f & r & a & Hr & Ha & ->).
  rewrite (transform_fieldwise _ _ _ _ T p f r a Hr Ha).
  pose proof (mvec_bdiag (map (fun q => (rp_size q, rp_mat q g)) reps) f (rp_size r) (rp_mat r g) (fun j => val d j (pi p)) a) as M.
  rewrite bsize_map_rep, <- L in M. rewrite firstn_map, map_map in M. cbn [fst] in M. symmetry. apply M; [rewrite nth_error_map, Hr; reflexivity|auto].
Qed.
Lemma bdiag_acts (reps : list (rep G)) g (pi : X -> X) (d d' : list chan) : reps <> [] -> length d = nsum (map rp_size reps) -> length d' = length d ->
  (forall i p, (i < length d)%nat -> val d' i p = mvec (length d) (matrix reps g) (fun j => val d j (pi p)) i) -> acts reps g pi d d'.
Proof.
  intros NE L L' H. split; [auto|]. destruct (transform_total reps g (fun p i => val d i (pi p)) NE) as [t' T]. exists t'. split; [auto|].
  intros p i Hi. rewrite H by auto. rewrite L in Hi. destruct (channel_in_field reps i Hi) as (f & r & a & Hr & Ha & ->).
  rewrite (transform_fieldwise _ _ _ _ T p f r a Hr Ha).
  pose proof (mvec_bdiag (map (fun q => (rp_size q, rp_mat q g)) reps) f (rp_size r) (rp_mat r g) (fun j => val d j (pi p)) a) as M.
  rewrite bsize_map_rep, <- L in M. rewrite firstn_map, map_map in M. cbn [fst] in M. apply M; [rewrite nth_error_map, Hr; reflexivity|auto].
Qed.
(** fields split further: the action of the concatenated lists of representations, field by field *)
Lemma split_acts (reps : list (rep G)) (outs : rep G -> list (rep G)) g (pi : X -> X) (y y' : list chan) : reps <> [] ->
  (forall r, In r reps -> nsum (map rp_size (outs r)) = rp_size r) -> (forall r, In r reps -> outs r <> []) ->
  length y = nsum (map rp_size reps) -> length y' = nsum (map rp_size reps) ->
  (forall f r b b', nth_error reps f = Some r -> nth_error (fields reps y) f = Some b -> nth_error (fields reps y') f = Some b' ->
     moved (rp_size r) (matrix (outs r) g) pi b b') -> acts (concat (map outs reps)) g pi y y'.
Proof.
  intros NE SZ NO L L' H.
  assert (LO : length y = nsum (map rp_size (concat (map outs reps)))).
  { rewrite L. clear - SZ. induction reps as [|r reps IH]; [reflexivity|]. cbn [map concat]. rewrite map_app, nsum_app, SZ by (cbn; auto). rewrite <- IH by (intros; apply SZ; cbn; auto). reflexivity. }
  apply bdiag_acts; auto; [|congruence|].
  { destruct reps as [|r reps]; [congruence|]. cbn. specialize (NO r (or_introl eq_refl)). destruct (outs r); [congruence|discriminate]. }
  intros i p Hi. rewrite L in Hi. destruct (channel_in_field reps i Hi) as (f & r & a & Hr & Ha & ->).
  destruct (fields_at reps y f r Hr) as [b Hb]. destruct (fields_at reps y' f r Hr) as [b' Hb']. destruct (H f r b b' Hr Hb Hb') as (_ & _ & M).
  destruct (fields_val _ _ _ _ _ L Hr Hb) as [B1 B2]. destruct (fields_val _ _ _ _ _ L' Hr Hb') as [B1' B2'].
  rewrite <- B2' by auto. rewrite M by auto.
  set (Ls := map (fun r => map (fun q => (rp_size q, rp_mat q g)) (outs r)) reps).
  assert (EL : map (fun q => (rp_size q, rp_mat q g)) (concat (map outs reps)) = concat Ls) by (unfold Ls; rewrite concat_map, map_map; reflexivity).
  assert (BS : nsum (map bsize Ls) = length y).
  { rewrite L. unfold Ls. rewrite map_map. f_equal. apply map_ext_in. intros q Hq. rewrite bsize_map_rep. auto. }
  pose proof (bdiag_concat Ls) as BC. rewrite BS in BC. rewrite EL.
  rewrite (mvec_compat (length y) (length y) _ _ _ (fun j => val y j (pi p)) BC (fun _ _ => eq_refl)) by (rewrite L; auto).
  pose proof (mvec_bdiag (map (fun l => (bsize l, bdiag l)) Ls) f (rp_size r) (matrix (outs r) g) (fun j => val y j (pi p)) a) as MB.
  assert (E0 : map (fun l => (bsize l, bdiag l)) Ls = map (fun r => (bsize (map (fun q => (rp_size q, rp_mat q g)) (outs r)), matrix (outs r) g)) reps) by (unfold Ls; rewrite map_map; reflexivity).
  assert (BB : bsize (map (fun l => (bsize l, bdiag l)) Ls) = length y) by (rewrite <- BS; unfold bsize at 1; rewrite map_map; reflexivity).
  rewrite BB in MB. rewrite E0 in MB |- *. rewrite firstn_map, map_map in MB. cbn [fst] in MB.
  assert (E1 : map (fun x => bsize (map (fun q => (rp_size q, rp_mat q g)) (outs x))) (firstn f reps) = map rp_size (firstn f reps)).
  { apply map_ext_in; intros q Hq. rewrite bsize_map_rep. apply SZ. apply (firstn_In' f). auto. }
  rewrite E1 in MB. fold (field_offset reps f) in MB.
  rewrite MB; [|rewrite nth_error_map, Hr; cbn [option_map]; rewrite bsize_map_rep, SZ by (eapply nth_error_In; eauto); reflexivity|auto].
  unfold mvec. apply rsum_ext. intros c Hc. rewrite B2 by auto. reflexivity.
Qed.
End Action.

Section Module.
Context {GS G X : Type} (gs_eqb : GS -> GS -> bool) (rp_eqb : rep G -> rep G -> bool).
Notation ftype := (ftype GS (rep G)).
Notation chan := (X -> R).
Notation gtensor := (gtensor GS (rep G) chan).
Notation matrix reps g := (bdiag (map (fun q => (rp_size q, rp_mat q g)) reps)).

Definition dis_reps (r : rep G) : list (rep G) := map (block_rep r) (seq 0 (fst (dis_components r))).
Definition dis_P (r : rep G) : mat := match disentangle r with Ok d => fst d | Err _ => mid end.
Lemma dis_total r : rep_accepted r -> disentangle r = Ok (dis_P r, dis_reps r).
Proof. intros A. destruct (disentangle_ok r A) as (P & E & _). unfold dis_P. rewrite E. reflexivity. Qed.
Lemma dis_P_at r i j : rep_accepted r -> (i < rp_size r)%nat -> dis_P r i j = if (j =? nth i (order r) 0)%nat then 1 else 0.
Proof. intros A Hi. destruct (disentangle_ok r A) as (P & E & V). unfold dis_P. rewrite E. cbn [fst]. apply V. auto. Qed.
Lemma dis_P_perm r : rep_accepted r -> is_perm (rp_size r) (dis_P r).
Proof. intros A. exists (fun i => nth i (order r) 0%nat). split; [apply order_bij|]. intros i j Hi Hj. apply dis_P_at; auto. Qed.
Lemma dis_sizes r : rep_accepted r -> nsum (map rp_size (dis_reps r)) = rp_size r.
Proof.
  intros A. unfold dis_reps. rewrite map_map, (map_ext _ _ (block_size r A)), <- (order_len r). unfold order. rewrite concat_length, map_map. reflexivity.
Qed.
Lemma perm_rows n s (P A : mat) i j : (forall i j, (i < n)%nat -> P i j = if (j =? s i)%nat then 1 else 0) -> bij n s -> (i < n)%nat -> (j < n)%nat ->
  mmul n (mmul n P A) (mtr P) i j = A (s i) (s j).
Proof.
  intros H [B1 _] Hi Hj. unfold mmul, mtr. rewrite (rsum_single n (s j)); [| |]; auto.
  - rewrite (rsum_single n (s i)); auto.
    + rewrite !H by auto. rewrite !Nat.eqb_refl. ring.
    + intros k Hk Nk. rewrite H by auto. destruct (Nat.eqb_spec k (s i)); [congruence|ring].
  - intros k Hk Nk. rewrite (H j) by auto. destruct (Nat.eqb_spec k (s j)); [congruence|ring].
Qed.
Lemma dis_conj r g : rep_accepted r -> meq (rp_size r) (rp_size r) (mmul (rp_size r) (mmul (rp_size r) (dis_P r) (rp_mat r g)) (mtr (dis_P r))) (matrix (dis_reps r) g).
Proof.
  intros A i j Hi Hj. rewrite (perm_rows (rp_size r) (fun i => nth i (order r) 0%nat)); auto; [|intros; apply dis_P_at; auto|apply order_bij].
  symmetry. apply order_mat; auto.
Qed.
Lemma dis_commute r g : rep_accepted r -> meq (rp_size r) (rp_size r) (mmul (rp_size r) (dis_P r) (rp_mat r g)) (mmul (rp_size r) (matrix (dis_reps r) g) (dis_P r)).
Proof.
  intros A. set (n := rp_size r). pose proof (dis_conj r g A) as C. fold n in C. destruct (perm_orthogonal _ _ (dis_P_perm r A)) as [_ O]. fold n in O.
  assert (E : meq n n (mmul n (mmul n (mmul n (dis_P r) (rp_mat r g)) (mtr (dis_P r))) (dis_P r)) (mmul n (matrix (dis_reps r) g) (dis_P r))) by (rewrite C; reflexivity).
  rewrite <- E. rewrite mmul_assoc_eq, O, mmul_id_r. reflexivity.
Qed.
Lemma move_len s (M : mat) (b : list chan) : length (move_field s M b) = s.
Proof. unfold move_field. rewrite map_length, seq_length. auto. Qed.
Lemma move_val s (M : mat) (b : list chan) a p : (a < s)%nat -> val (move_field s M b) a p = mvec s M (fun e => val b e p) a.
Proof.
  intros H. unfold val, move_field. set (h := fun o : nat => (fun p0 : X => rsum s (fun e => M o e * nth e b (fun _ => 0) p0)) : chan).
  rewrite (nth_indep (map h (seq 0 s)) (fun _ => 0) (h 0%nat)) by (rewrite map_length, seq_length; auto). rewrite (map_nth h), seq_nth by auto. reflexivity.
Qed.
Lemma move_moved r g (pi : X -> X) (b b' : list chan) : rep_accepted r -> moved (rp_size r) (rp_mat r g) pi b b' ->
  moved (rp_size r) (matrix (dis_reps r) g) pi (move_field (rp_size r) (dis_P r) b) (move_field (rp_size r) (dis_P r) b').
Proof.
  intros A (L & L' & M). split; [apply move_len|]. split; [apply move_len|]. intros p a Ha. rewrite move_val by auto.
  transitivity (mvec (rp_size r) (dis_P r) (mvec (rp_size r) (rp_mat r g) (fun c => val b c (pi p))) a).
  { apply (mvec_compat (rp_size r) (rp_size r)); auto; [intros x y Hx Hy; reflexivity|]. intros c Hc. apply M. auto. }
  rewrite <- mvec_mmul. rewrite (mvec_compat (rp_size r) (rp_size r) _ _ _ (fun c => val b c (pi p)) (dis_commute r g A) (fun _ _ => eq_refl)) by auto.
  rewrite mvec_mmul. fold (mvec (rp_size r) (matrix (dis_reps r) g) (fun c => val (move_field (rp_size r) (dis_P r) b) c (pi p)) a).
  apply (mvec_compat (rp_size r) (rp_size r)); auto; [intros x y Hx Hy; reflexivity|]. intros c Hc. rewrite move_val by auto. reflexivity.
Qed.

Lemma dismod_ok (t : ftype) uniq m : dismod_make t uniq = Ok m -> uniq_ok t uniq -> (forall r, In r (ft_reps t) -> rep_accepted r) ->
  dm_in m = t /\ ft_gs (dm_out m) = ft_gs t /\ ft_reps (dm_out m) = concat (map dis_reps (ft_reps t)) /\ concat (map dis_reps (ft_reps t)) <> [] /\
  good_index (map (fun r => (rp_name r, rp_size r)) (ft_reps t)) (map rp_name (ft_reps t)) (dm_idx m) /\
  (forall r, In r (ft_reps t) -> dis_get (dm_cob m) (rp_name r) = Ok (rp_size r, dis_P r)).
Proof.
  intros MK [U ND] ACC. unfold dismod_make, dis_dict in MK.
  rewrite (rmap_pure _ (fun r => (rp_name r, (rp_size r, dis_P r, dis_reps r)))) in MK.
  2:{ intros r Hr. rewrite dis_total by (apply ACC, U; auto). reflexivity. }
  cbn [rbind] in MK. set (d := map (fun r => (rp_name r, (rp_size r, dis_P r, dis_reps r))) uniq) in *.
  assert (NDd : NoDup (map fst d)) by (unfold d; rewrite map_map; exact ND).
  rewrite (rmap_pure _ dis_reps) in MK.
  2:{ intros r Hr. rewrite (dis_get_ok d _ (rp_size r, dis_P r, dis_reps r)); [reflexivity|auto|]. apply in_map_iff. exists r. split; [auto|]. apply U. auto. }
  cbn [rbind] in MK. apply rbind_ok in MK as (out & HO & MK). apply rbind_ok in MK as (idx & HI & MK). injection MK as <-. cbn [dm_in dm_out dm_cob dm_idx].
  apply group_index_good in HI. rewrite map_map in HI. cbn [fst] in HI.
  destruct (concat (map dis_reps (ft_reps t))) as [|q l] eqn:EC; [discriminate|]. injection HO as <-. cbn [ft_gs ft_reps].
  split; [auto|]. split; [auto|]. split; [auto|]. split; [discriminate|]. split; [exact HI|]. intros r Hr. apply dis_get_ok.
  - rewrite map_map. cbn [fst]. exact NDd.
  - unfold d. rewrite map_map. cbn [fst snd]. apply in_map_iff. exists r. split; [auto|]. apply U. auto.
Qed.
Lemma dismod_forward_ok (t : ftype) uniq m junk (x : gtensor) : dismod_make t uniq = Ok m -> uniq_ok t uniq -> (forall r, In r (ft_reps t) -> rep_accepted r) -> size_pos t ->
  typed gs_eqb rp_eqb t x ->
  exists y, dismod_forward gs_eqb rp_eqb junk m x = Ok y /\ gt_type y = dm_out m /\ length (gt_data y) = nsum (map rp_size (ft_reps t)) /\
    forall f r b, nth_error (ft_reps t) f = Some r -> nth_error (fields (ft_reps t) (gt_data x)) f = Some b -> nth_error (fields (ft_reps t) (gt_data y)) f = Some (move_field (rp_size r) (dis_P r) b).
Proof.
  intros MK UO ACC SP (TY & LX). destruct (dismod_ok t uniq m MK UO ACC) as (I1 & I2 & I3 & I4 & I5 & I6).
  set (reps := ft_reps t) in *. set (ks := map rp_name reps).
  assert (FN : forall r, In r reps -> find (fun r0 => String.eqb (rp_name r0) (rp_name r)) uniq = Some r) by (intros r Hr; apply (uniq_find t); auto).
  assert (GZ : forall r, In r reps -> gsize uniq (rp_name r) = rp_size r) by (intros r Hr; unfold gsize; rewrite FN; auto).
  assert (KR : forall k, In k ks -> exists r, In r reps /\ k = rp_name r) by (intros k Hk; apply in_map_iff in Hk as (r & <- & Hr); eauto).
  assert (SZ : map (gsize uniq) ks = map rp_size reps). { unfold ks. rewrite map_map. apply map_ext_in. auto. }
  assert (POS : forall k, In k ks -> (0 < gsize uniq k)%nat). { intros k Hk. apply KR in Hk as (r & Hr & ->). rewrite GZ by auto. apply SP. auto. }
  set (g := fun (k : string) (_ : nat) (b : list chan) => match find (fun r => String.eqb (rp_name r) k) uniq with Some r => move_field (rp_size r) (dis_P r) b | None => b end).
  unfold dismod_forward. rewrite I1, TY. cbn [assert_]. fold reps ks.
  destruct (rank_loop String.eqb (fun l => l) (gsize uniq) ks reps (dm_idx m) (fun name _ fm =>
            rbind (dis_get (dm_cob m) name) (fun sc => rbind (view_fields (fst sc) fm) (fun bl => Ok (concat (map (move_field (fst sc) (snd sc)) bl))))) g
            (gt_data x) (empty junk (length (gt_data x)))) as (y & Y1 & Y2 & Y3); auto.
  - apply String.eqb_spec.
  - rewrite map_id. unfold ks in *. rewrite map_map. rewrite (map_ext_in _ (fun r => (rp_name r, rp_size r))) by (intros r Hr; rewrite GZ; auto). exact I5.
  - rewrite empty_length. auto.
  - intros k j b Hk Hb. apply KR in Hk as (r & Hr & ->). unfold g. rewrite (FN r Hr). rewrite GZ by auto. apply move_len.
  - intros k fm bl Hk V _. apply KR in Hk as (r & Hr & ->). rewrite I6 by auto. cbn [rbind fst snd]. rewrite GZ in V by auto. rewrite V. cbn [rbind]. f_equal. f_equal.
    unfold g. rewrite (FN r Hr). rewrite <- (enumerate_snd bl) at 1. rewrite map_map. reflexivity.
  - rewrite Y1. cbn [rbind]. unfold mk_gt. assert (SO : ft_size rp_size (dm_out m) = nsum (map rp_size reps)).
    { unfold ft_size. rewrite I3. clear - ACC. induction reps as [|r l IH]; [reflexivity|]. cbn [map concat]. rewrite map_app, nsum_app, dis_sizes by (apply ACC; cbn; auto). rewrite IH by (intros; apply ACC; cbn; auto). reflexivity. }
    rewrite SO, Y2, Z.eqb_refl. cbn [assert_]. eexists. split; [reflexivity|]. cbn [gt_type gt_data]. split; [auto|]. split; [auto|]. intros f r b Hr Hb.
    rewrite (Y3 f (rp_name r) b); [|unfold ks; rewrite nth_error_map, Hr; reflexivity|auto]. unfold g. rewrite (FN r) by (eapply nth_error_In; eauto). reflexivity.
Qed.
End Module.
