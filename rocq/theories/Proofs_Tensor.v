From Coq Require Import Reals ZArith String List Bool Lia Lra.
From Verif Require Import Base Spec Spec_Fields Model_Groups Model_Rep Proofs_Rep Model_FieldType Proofs_FieldType Model_Tensor.
Import ListNotations.
Open Scope R_scope.

(** * getitem succeeds on valid selections *)
Section S.
Variables (GS Rp : Type) (sz : Rp -> nat) (fits : GS -> Rp -> bool) (A : Type).
Notation gtensor := (gtensor GS Rp A).
Open Scope nat_scope.

Lemma getitem_unit_fwd (x : gtensor) start stop step s e :
  let n := length (ft_reps (gt_type x)) in
  wf GS Rp sz fits x -> (step = None \/ step = Some 1%Z) -> s < e -> e <= n ->
  Z.of_nat s = bound n start 0 -> Z.of_nat e = bound n stop (Z.of_nat n) ->
  exists y, getitem sz fits x (ISlice start stop step) = Ok y.
Proof.
  intros n W Hst Hse He Hs He'. unfold getitem. cbn [int_to_slice].
  replace (match step with None => true | Some s => (s =? 1)%Z end) with true by (destruct Hst; subst; auto).
  set (rs := ft_reps (gt_type x)) in *. unfold ft_len. fold rs. fold n.
  set (s0 := match start with None => 0%Z | Some s => s end).
  set (e0 := match stop with None => Z.of_nat n | Some e => e end).
  unfold fields_start, fields_end. fold rs.
  rewrite (py_index_fwd _ _ s (Proofs_FieldType.off Rp sz rs s)).
  2:{ rewrite starts_nth by (fold n; lia). reflexivity. }
  2:{ rewrite starts_length. fold n. unfold s0, bound in *. destruct start; cbn; lia. }
  cbn [rbind].
  rewrite (py_index_fwd _ _ (e - 1) (Proofs_FieldType.off Rp sz rs e)).
  2:{ rewrite ends_nth by (fold n; lia). cbn [Nat.add]. do 2 f_equal. lia. }
  2:{ rewrite ends_length. fold n. unfold e0, bound in *. destruct stop.
      - destruct (Z.ltb_spec z 0); destruct (Z.ltb_spec (z - 1) 0); lia.
      - destruct (Z.ltb_spec (Z.of_nat n - 1) 0); lia. }
  cbn [rbind].
  assert (exists t', (if (s0 =? 0)%Z && (e0 =? Z.of_nat n)%Z then Ok (gt_type x) else
     rbind (py_slice (Z.of_nat n) start stop step) (fun idx => mk_ftype fits (ft_gs (gt_type x)) (take_at rs idx))) = Ok t' /\
     picks rs (seq s (e - s)) (ft_reps t')) as (t' & -> & HP).
  { destruct ((s0 =? 0)%Z && (e0 =? Z.of_nat n)%Z) eqn:E.
    - apply andb_prop in E as [E1 E2]. apply Z.eqb_eq in E1, E2.
      assert (s = 0). { unfold s0, bound in *. destruct start; [subst; cbn in Hs|]; lia. }
      assert (e = n). { unfold e0, bound in *. destruct stop; [|lia]. subst z. destruct (Z.ltb_spec (Z.of_nat n) 0); lia. }
      subst. eexists; split; [reflexivity|]. unfold picks. fold rs. rewrite Nat.sub_0_r. symmetry. apply map_nth_error_seq.
    - assert (exists idx, py_slice (Z.of_nat n) start stop step = Ok idx) as [idx Hidx].
      { unfold py_slice. destruct Hst as [-> | ->]; cbn; eauto. }
      rewrite Hidx. apply (py_slice_unit n start stop step idx s e) in Hidx; auto; try lia. subst idx. cbn [rbind].
      assert (HP : picks rs (seq s (e - s)) (take_at rs (map Z.of_nat (seq s (e - s))))).
      { apply take_at_picks. apply Forall_forall. intros f Hf. apply in_seq in Hf. fold n. lia. }
      rewrite mk_ftype_fwd. eexists; split; [reflexivity|exact HP].
      + intros E'. apply picks_length in HP. rewrite E', seq_length in HP. cbn in HP. lia.
      + eapply fits_picks; [|exact HP]. apply W. }
  cbn [rbind]. rewrite mk_gt_fwd; [eauto|].
  destruct W as [_ W]. unfold ft_size in W. fold rs in W.
  assert (exists cs, picks (cut (map sz rs) (gt_data x)) (seq s (e - s)) cs) as [cs Hcs].
  { apply picks_exists. rewrite cut_length, map_length. apply Forall_forall. intros f Hf. apply in_seq in Hf. fold n. lia. }
  unfold ft_size. rewrite <- (picks_blocks_length Rp sz rs (gt_data x) (seq s (e - s)) _ cs W HP Hcs).
  rewrite (concat_range Rp sz rs (gt_data x) (e - s) s cs W ltac:(fold n; lia) Hcs). repeat f_equal. lia.
Qed.

Lemma getitem_int_fwd (x : gtensor) z F : wf GS Rp sz fits x ->
  int_selects (length (ft_reps (gt_type x))) z F -> exists y, getitem sz fits x (IInt z) = Ok y.
Proof.
  intros W H. set (n := length (ft_reps (gt_type x))) in *.
  set (idx := if (z <? 0)%Z then (Z.of_nat n + z)%Z else z).
  assert (exists y, getitem sz fits x (ISlice (Some idx) (Some (idx + 1)%Z) (Some 1%Z)) = Ok y) as [y Hy]; [|exists y; exact Hy].
  assert (HI : (0 <= idx < Z.of_nat n)%Z). { unfold idx. destruct H as [[H _]|[H _]]; destruct (Z.ltb_spec z 0); lia. }
  apply (getitem_unit_fwd x _ _ _ (Z.to_nat idx) (Z.to_nat idx + 1)); auto; fold n; unfold bound; try lia.
  destruct (Z.ltb_spec idx 0); lia. destruct (Z.ltb_spec (idx + 1) 0); lia.
Qed.

Lemma getitem_step_fwd (x : gtensor) start stop c F : wf GS Rp sz fits x -> c <> 1%Z ->
  slice_selects (length (ft_reps (gt_type x))) start stop (Some c) F -> F <> [] ->
  exists y, getitem sz fits x (ISlice start stop (Some c)) = Ok y.
Proof.
  intros W HC HS NE. unfold getitem. cbn [int_to_slice]. destruct (Z.eqb_spec c 1); [lia|].
  set (rs := ft_reps (gt_type x)) in *. unfold ft_len. fold rs.
  assert (exists idx, py_slice (Z.of_nat (length rs)) start stop (Some c) = Ok idx) as [idx Hidx].
  { unfold py_slice. destruct (Z.eqb_spec c 0). destruct HS as [HS _]. lia. eauto. }
  rewrite Hidx. apply py_slice_spec in Hidx as (F' & -> & HF & HS'). cbn [rbind].
  rewrite (slice_selects_fun _ _ _ _ _ _ HS' HS) in *. clear HS' F'.
  assert (exists idxs, rmap (fun f => rbind (py_index (fields_start sz (gt_type x)) f) (fun a =>
                          rbind (py_index (fields_end sz (gt_type x)) f) (fun b =>
                          Ok (map Z.of_nat (seq a (b - a)))))) (map Z.of_nat F) = Ok idxs) as [idxs Hidxs].
  { assert (exists idxs, Forall2 (fun f y => rbind (py_index (fields_start sz (gt_type x)) f) (fun a =>
                          rbind (py_index (fields_end sz (gt_type x)) f) (fun b =>
                          Ok (map Z.of_nat (seq a (b - a))))) = Ok y) (map Z.of_nat F) idxs) as [idxs H].
    { clear HS NE. induction HF as [|f F Hf HF IH]; [eexists; constructor|]. destruct IH as [idxs IH].
      eexists. cbn [map]. constructor; [|exact IH].
      rewrite (py_index_fwd _ _ f (Proofs_FieldType.off Rp sz rs f)); [|apply starts_nth; auto|destruct (Z.ltb_spec (Z.of_nat f) 0); lia].
      rewrite (py_index_fwd _ _ f (Proofs_FieldType.off Rp sz rs (S f))); [|apply ends_nth; auto|destruct (Z.ltb_spec (Z.of_nat f) 0); lia].
      reflexivity. }
    exists idxs. apply rmap_ok_fwd; auto. }
  rewrite Hidxs. cbn [rbind]. assert (HP := take_at_picks rs F HF).
  rewrite mk_ftype_fwd; cycle 1.
  { intros E. apply picks_length in HP. rewrite E in HP. destruct F; [congruence|discriminate]. }
  { eapply fits_picks; [|exact HP]. apply W. }
  cbn [rbind]. rewrite mk_gt_fwd; [eauto|].
  destruct W as [_ W]. unfold ft_size in W. fold rs in W.
  assert (exists cs, picks (cut (map sz rs) (gt_data x)) F cs) as [cs Hcs].
  { apply picks_exists. rewrite cut_length, map_length. auto. }
  apply rmap_all in Hidxs. rewrite (selects_channels Rp sz rs (gt_data x) F idxs W Hidxs cs Hcs).
  unfold ft_size. cbn [ft_reps]. eapply picks_blocks_length; eauto.
Qed.
End S.

(** * transform_fibers *)
Lemma bsize_cons n A L : bsize ((n, A) :: L) = (n + bsize L)%nat.
Proof. reflexivity. Qed.
Lemma mvec_bdiag (L : list (nat * mat)) : forall i n A v a, nth_error L i = Some (n, A) -> (a < n)%nat ->
  mvec (bsize L) (bdiag L) v (nsum (map fst (firstn i L)) + a)%nat =
  mvec n A (fun b => v (nsum (map fst (firstn i L)) + b)%nat) a.
Proof.
  induction L as [|[m B] L IH]; intros [|i] n A v a H Ha; cbn [nth_error] in H; try discriminate.
  - injection H as -> ->. cbn [firstn map nsum fold_right Nat.add]. unfold mvec. rewrite bsize_cons, rsum_split.
    rewrite (rsum_0 (bsize L)).
    + rewrite Rplus_0_r. apply rsum_ext. intros k Hk. cbn [bdiag].
      destruct (Nat.ltb_spec a n); [|lia]. destruct (Nat.ltb_spec k n); [|lia]. reflexivity.
    + intros k Hk. cbn [bdiag]. destruct (Nat.ltb_spec a n); [|lia]. destruct (Nat.ltb_spec (n + k) n); [lia|]. cbn. ring.
  - cbn [firstn map fst]. change (nsum (m :: map fst (firstn i L))) with (m + nsum (map fst (firstn i L)))%nat.
    set (o := nsum (map fst (firstn i L))). unfold mvec at 1. rewrite bsize_cons, rsum_split. rewrite (rsum_0 m).
    + rewrite Rplus_0_l. specialize (IH i n A (fun k => v (m + k)%nat) a H Ha). fold o in IH.
      transitivity (mvec (bsize L) (bdiag L) (fun k => v (m + k)%nat) (o + a)%nat).
      * unfold mvec. apply rsum_ext. intros k Hk. cbn [bdiag].
        destruct (Nat.ltb_spec (m + o + a) m); [lia|]. destruct (Nat.ltb_spec (m + k) m); [lia|]. cbn [andb].
        replace (m + o + a - m)%nat with (o + a)%nat by lia. replace (m + k - m)%nat with k by lia. reflexivity.
      * rewrite IH. unfold mvec. apply rsum_ext. intros k Hk. rewrite Nat.add_assoc. reflexivity.
    + intros k Hk. cbn [bdiag]. destruct (Nat.ltb_spec (m + o + a) m); [lia|]. destruct (Nat.ltb_spec k m); [|lia]. cbn. ring.
Qed.

(** offset of field i *)
Definition field_offset {G} (reps : list (rep G)) (i : nat) : nat := nsum (map rp_size (firstn i reps)).

Lemma ds_size {G} (l : list (rep G)) name r : directsum l name = Ok r -> rp_size r = nsum (map rp_size l).
Proof.
  intros H. apply directsum_irreps in H. unfold rp_size. rewrite H. apply concat_sizes.
Qed.
Lemma bsize_map_rep {G} (l : list (rep G)) g : bsize (map (fun s => (rp_size s, rp_mat s g)) l) = nsum (map rp_size l).
Proof. unfold bsize. rewrite map_map. reflexivity. Qed.

Lemma transform_fieldwise {G X} (reps : list (rep G)) g (t t' : X -> vec) :
  transform_fibers reps g t = Ok t' ->
  forall x i r a, nth_error reps i = Some r -> (a < rp_size r)%nat ->
  t' x (field_offset reps i + a)%nat =
  rsum (rp_size r) (fun b => rp_mat r g a b * t x (field_offset reps i + b)%nat).
Proof.
  intros H x i r a Hr Ha. unfold transform_fibers, type_representation in H. apply rbind_ok in H as (rho & Hrho & H). injection H as <-.
  rewrite (ds_size _ _ _ Hrho).
  set (L := map (fun s => (rp_size s, rp_mat s g)) reps).
  assert (EO : field_offset reps i = nsum (map fst (firstn i L))).
  { unfold field_offset, L. rewrite firstn_map, map_map. reflexivity. }
  assert (HL : nth_error L i = Some (rp_size r, rp_mat r g)). { unfold L. rewrite nth_error_map, Hr. reflexivity. }
  assert (BD : (field_offset reps i + a < nsum (map rp_size reps))%nat).
  { unfold field_offset. assert (Hi := Hr). apply nth_error_split in Hi as (l1 & l2 & -> & <-).
    rewrite firstn_app, Nat.sub_diag, firstn_all. cbn [firstn]. rewrite app_nil_r, map_app, nsum_app. cbn [map].
    change (nsum (rp_size r :: map rp_size l2)) with (rp_size r + nsum (map rp_size l2))%nat. lia. }
  rewrite (mvec_compat _ _ _ _ _ _ (directsum_mat reps _ rho g Hrho) (fun _ _ => eq_refl) _ BD).
  fold L. rewrite <- (bsize_map_rep reps g). fold L. rewrite EO, (mvec_bdiag L i _ _ _ _ HL Ha). reflexivity.
Qed.

(** every channel belongs to some field *)
Lemma channel_in_field {G} (reps : list (rep G)) c : (c < nsum (map rp_size reps))%nat ->
  exists i r a, nth_error reps i = Some r /\ (a < rp_size r)%nat /\ c = (field_offset reps i + a)%nat.
Proof.
  revert c. induction reps as [|r reps IH]; intros c H; cbn [map] in H. cbn in H; lia.
  change (nsum (rp_size r :: map rp_size reps)) with (rp_size r + nsum (map rp_size reps))%nat in H.
  destruct (Nat.lt_ge_cases c (rp_size r)).
  - exists O, r, c. repeat split; auto.
  - destruct (IH (c - rp_size r)%nat ltac:(lia)) as (i & r' & a & H1 & H2 & H3).
    exists (S i), r', a. split; [auto|]. split; [auto|]. unfold field_offset in *. cbn [firstn map].
    change (nsum (rp_size r :: map rp_size (firstn i reps))) with (rp_size r + nsum (map rp_size (firstn i reps)))%nat. lia.
Qed.

Section Act.
Context {G X : Type} (el : G -> Prop) (op : G -> G -> G) (e : G).
Definition all_reps (reps : list (rep G)) : Prop :=
  Forall (fun r => is_representation el op e (rp_size r) (rp_mat r)) reps.

(** two tensors agree on all channels *)
Definition same (n : nat) (t t' : X -> vec) : Prop := forall x, veq n (t x) (t' x).

Lemma transform_id (reps : list (rep G)) (t t' : X -> vec) : all_reps reps ->
  transform_fibers reps e t = Ok t' -> same (nsum (map rp_size reps)) t' t.
Proof.
  intros HR H x c Hc. destruct (channel_in_field reps c Hc) as (i & r & a & Hr & Ha & ->).
  rewrite (transform_fieldwise _ _ _ _ H x i r a Hr Ha).
  unfold all_reps in HR. rewrite Forall_forall in HR. destruct (HR r) as [E _]. eapply nth_error_In; eauto.
  exact (eq_trans (mvec_compat _ _ _ _ _ _ E (fun _ _ => eq_refl) a Ha) (mvec_id _ _ a Ha)).
Qed.
Lemma transform_comp (reps : list (rep G)) g h (t t1 t2 t3 : X -> vec) : all_reps reps -> el g -> el h ->
  transform_fibers reps h t = Ok t1 -> transform_fibers reps g t1 = Ok t2 ->
  transform_fibers reps (op g h) t = Ok t3 -> same (nsum (map rp_size reps)) t2 t3.
Proof.
  intros HR Hg Hh H1 H2 H3 x c Hc. destruct (channel_in_field reps c Hc) as (i & r & a & Hr & Ha & ->).
  rewrite (transform_fieldwise _ _ _ _ H2 x i r a Hr Ha), (transform_fieldwise _ _ _ _ H3 x i r a Hr Ha).
  unfold all_reps in HR. rewrite Forall_forall in HR. destruct (HR r) as [_ E]. eapply nth_error_In; eauto.
  set (v := fun b => t x (field_offset reps i + b)%nat).
  change (rsum (rp_size r) (fun b => rp_mat r g a b * t1 x (field_offset reps i + b)%nat)) with
    (mvec (rp_size r) (rp_mat r g) (fun b => t1 x (field_offset reps i + b)%nat) a).
  change (rsum (rp_size r) (fun b => rp_mat r (op g h) a b * t x (field_offset reps i + b)%nat)) with
    (mvec (rp_size r) (rp_mat r (op g h)) v a).
  rewrite (mvec_compat _ _ _ _ _ _ (E g h Hg Hh) (fun _ _ => eq_refl) a Ha), mvec_mmul.
  apply mvec_compat with (r := rp_size r); auto. reflexivity.
  intros b Hb. exact (transform_fieldwise _ _ _ _ H1 x i r b Hr Hb).
Qed.
End Act.

Lemma transform_total {G X} (reps : list (rep G)) g (t : X -> vec) : reps <> [] -> exists t', transform_fibers reps g t = Ok t'.
Proof. intros H. unfold transform_fibers, type_representation. destruct reps; [congruence|]. cbn [directsum rbind]. eauto. Qed.

(** linearity *)
Lemma mvec_lin n A u v p q i : mvec n A (fun k => p * u k + q * v k) i = p * mvec n A u i + q * mvec n A v i.
Proof.
  unfold mvec. rewrite <- !rsum_scal, <- rsum_plus. apply rsum_ext. intros; ring.
Qed.
Lemma mvec_ext n A u v i : (forall k, u k = v k) -> mvec n A u i = mvec n A v i.
Proof. intros H. unfold mvec. apply rsum_ext. intros; rewrite H; reflexivity. Qed.

Lemma transform_linear {G X} (reps : list (rep G)) g (u v w u' v' w' : X -> vec) p q :
  (forall x i, w x i = p * u x i + q * v x i) ->
  transform_fibers reps g u = Ok u' -> transform_fibers reps g v = Ok v' -> transform_fibers reps g w = Ok w' ->
  forall x i, w' x i = p * u' x i + q * v' x i.
Proof.
  intros E Hu Hv Hw x i. unfold transform_fibers in *. destruct (type_representation reps); cbn in *; [|discriminate].
  injection Hu as <-. injection Hv as <-. injection Hw as <-. cbn.
  rewrite <- mvec_lin. apply mvec_ext. auto.
Qed.

(** * restriction *)
Lemma dict_get_in {V} (d : list (string * V)) k v : dict_get d k = Ok v -> In (k, v) d.
Proof.
  induction d as [|[k' v'] d IH]; cbn; [discriminate|]. destruct (String.eqb_spec k' k).
  - intros H; injection H as ->. subst; auto.
  - auto.
Qed.
Lemma dict_get_some {V} (d : list (string * V)) k v : In (k, v) d -> exists v', dict_get d k = Ok v'.
Proof.
  induction d as [|[k' v'] d IH]; cbn; [tauto|]. destruct (String.eqb_spec k' k); eauto.
  intros [E|H]; auto. congruence.
Qed.
Lemma restricted_dict_in {G H} (f : rep G -> result (rep H)) uniq d d' : restricted_dict f uniq d = Ok d' ->
  forall k v, In (k, v) d' <-> (In (k, v) d \/ exists r, In r uniq /\ rp_name r = k /\ f r = Ok v).
Proof.
  revert d. induction uniq as [|r l IH]; cbn [restricted_dict]; intros d E k v.
  - injection E as ->. split; [auto|]. intros [?|(r & [] & _)]; auto.
  - apply rbind_ok in E as (r' & Hr & E). rewrite (IH _ E). cbn [In]. split.
    + intros [[X|X]|(q & Hq & N & F)]; [|auto|right; exists q; auto]. injection X as <- <-. right; exists r; auto.
    + intros [X|(q & [<-|Hq] & N & F)]; [auto| |right; exists q; auto]. left; left. congruence.
Qed.
Lemma restricted_dict_total {G H} (f : rep G -> result (rep H)) uniq d : (forall r, In r uniq -> exists r', f r = Ok r') ->
  exists d', restricted_dict f uniq d = Ok d'.
Proof.
  revert d. induction uniq as [|r l IH]; cbn; intros d E; eauto. destruct (E r) as [r' ->]; auto. cbn. apply IH. auto.
Qed.

Lemma ft_restrict_spec {GS GS' G H} fits (sub : GS') (f : rep G -> result (rep H)) uniq (t : ftype GS (rep G)) t' :
  (forall r, In r uniq <-> In r (ft_reps t)) ->
  (forall r s, In r (ft_reps t) -> In s (ft_reps t) -> rp_name r = rp_name s -> r = s) ->
  ft_restrict fits sub f uniq t = Ok t' ->
  ft_gs t' = sub /\ Forall2 (fun r r' => f r = Ok r') (ft_reps t) (ft_reps t').
Proof.
  intros U N E. unfold ft_restrict in E. apply rbind_ok in E as (d & Hd & E). apply rbind_ok in E as (fields & Hf & E).
  apply mk_ftype_ok in E as [-> _]. split; [reflexivity|]. cbn [ft_reps].
  apply rmap_all in Hf. assert (IN : forall r, In r (ft_reps t) -> In r (ft_reps t)) by auto. revert IN Hf.
  generalize (ft_reps t) at 1 3 4 as l. intros l IN Hf.
  induction Hf as [|r r' l fields Hr Hf IH]; constructor; auto.
  - apply dict_get_in in Hr. rewrite (restricted_dict_in _ _ _ _ Hd) in Hr. destruct Hr as [[]|(s & Hs & Ns & Fs)].
    rewrite U in Hs. rewrite (N r s); auto. apply IN; cbn; auto.
  - apply IH. intros; apply IN; cbn; auto.
Qed.
Lemma ft_restrict_total {GS GS' G H} fits (sub : GS') (f : rep G -> result (rep H)) uniq (t : ftype GS (rep G)) :
  (forall r, In r uniq <-> In r (ft_reps t)) -> ft_reps t <> [] ->
  (forall r, In r (ft_reps t) -> exists r', f r = Ok r') -> (forall r', fits sub r' = true) ->
  exists t', ft_restrict fits sub f uniq t = Ok t'.
Proof.
  intros U NE E F. unfold ft_restrict. destruct (restricted_dict_total f uniq []) as [d Hd].
  { intros r Hr. apply E, U; auto. }
  rewrite Hd. cbn [rbind].
  assert (exists fields, Forall2 (fun r y => dict_get d (rp_name r) = Ok y) (ft_reps t) fields) as [fields Hf].
  { assert (IN : forall r, In r (ft_reps t) -> In r (ft_reps t)) by auto. revert IN. generalize (ft_reps t) at 1 3 as l.
    induction l as [|r l IH]; intros IN; [eexists; constructor|]. destruct IH as [fs Hfs]. intros; apply IN; cbn; auto.
    destruct (E r) as [r' Hr]. apply IN; cbn; auto.
    assert (In (rp_name r, r') d). { rewrite (restricted_dict_in _ _ _ _ Hd). right. exists r. rewrite U. repeat split; auto. apply IN; cbn; auto. }
    destruct (dict_get_some _ _ _ H0) as [v Hv]. eexists; constructor; eauto. }
  rewrite (rmap_ok_fwd _ _ _ Hf). cbn [rbind]. rewrite mk_ftype_fwd; eauto.
  - intros ->. inversion Hf. congruence.
  - apply forallb_forall. auto.
Qed.

Lemma Forall2_nth {A B} (P : A -> B -> Prop) l l' i a : Forall2 P l l' -> nth_error l i = Some a ->
  exists b, nth_error l' i = Some b /\ P a b.
Proof. intros H; revert i; induction H; intros [|i] E; cbn in *; try discriminate; eauto. injection E as <-; eauto. Qed.

Lemma Forall2_offset {G H} (l : list (rep G)) (l' : list (rep H)) : Forall2 (fun r r' => rp_size r' = rp_size r) l l' ->
  forall i, field_offset l' i = field_offset l i.
Proof.
  unfold field_offset. intros F i. f_equal. revert i. induction F; intros [|i]; cbn; auto. f_equal; auto.
Qed.

Lemma restricted_transform {G H X} (elH : H -> Prop) (parent : H -> G) (reps : list (rep G)) (reps' : list (rep H)) (t t1 t2 : X -> vec) h :
  Forall2 (fun r r' => rp_size r' = rp_size r /\ restricts_to elH parent (rp_size r) (rp_mat r) (rp_mat r')) reps reps' ->
  elH h -> transform_fibers reps' h t = Ok t1 -> transform_fibers reps (parent h) t = Ok t2 ->
  same (nsum (map rp_size reps)) t1 t2.
Proof.
  intros F Hh H1 H2 x c Hc. destruct (channel_in_field reps c Hc) as (i & r & a & Hr & Ha & ->).
  rewrite (transform_fieldwise _ _ _ _ H2 x i r a Hr Ha).
  destruct (Forall2_nth _ _ _ _ _ F Hr) as (r' & Hr' & Sz & Rs).
  assert (EO : field_offset reps' i = field_offset reps i).
  { apply Forall2_offset. clear -F. induction F; constructor; tauto. }
  rewrite <- EO. rewrite (transform_fieldwise _ _ _ _ H1 x i r' a Hr') by lia.
  rewrite Sz. apply rsum_ext. intros b Hb. rewrite (Rs h Hh a b) by auto. reflexivity.
Qed.
