(** The order of the elements of the block and product bases (C27). *)
From Coq Require Import Reals ZArith String List Bool Lia Lra Setoid Morphisms Sorted.
From Verif Require Import Base Spec Model_Groups Model_Rep Model_GSpace Spec_GSpace Model_Kernels Spec_Kernels
  Proofs_Groups Proofs_Cont Proofs_Irreps Proofs_Rep Proofs_Restrict Proofs_GSpace Proofs_Trig Proofs_Kernels Proofs_Kernels2 Proofs_Kernels3
  Proofs_Kernels5.
Import ListNotations.
Open Scope R_scope.

Lemma place_embed k M i j : place k M i j = embed (bk_outpos k) (bk_inpos k) (bk_outsize k) (bk_insize k) M i j.
Proof. rewrite place_inb. reflexivity. Qed.

Definition total (l : list skblock) : nat := nsum (map (fun k => odim (bk_basis k)) l).

Lemma sk_walk l : forall count idx, (count <= idx < count + total l)%nat ->
  exists k b r, In k l /\ bk_basis k = Some b /\ (r < kb_dim b)%nat /\
    sk_find l count idx = Some (bk_ii k, bk_oo k, r, idx) /\
    nth_error (sk_iter_from l count) (idx - count) = Some (bk_ii k, bk_oo k, r, idx) /\
    forall a, sk_write l count idx a = place k (kb_sample b r a).
Proof.
  induction l as [|k l IH]; intros count idx H; unfold total in *; cbn [map nsum fold_right] in H; [lia|].
  change (fold_right Nat.add O (map (fun k => odim (bk_basis k)) l)) with (total l) in H. fold (total l) in *.
  cbn [sk_find sk_iter_from sk_write]. destruct (bk_basis k) as [b|] eqn:E; cbn [odim] in H.
  - destruct (Nat.ltb_spec (idx - count) (kb_dim b)) as [H1|H1].
    + exists k, b, (idx - count)%nat. split; [left; auto|]. split; auto. split; auto.
      destruct (Nat.leb_spec count idx) as [H2|]; [|lia]. destruct (Nat.ltb_spec idx (count + kb_dim b)) as [H3|]; [|lia]. cbn [andb].
      split; auto. split; auto. rewrite nth_error_app1 by (rewrite map_length, seq_length; auto).
      rewrite nth_error_map. rewrite (nth_error_nth' _ O) by (rewrite seq_length; auto). rewrite seq_nth by auto. cbn [option_map].
      do 2 f_equal; lia.
    + destruct (IH (count + kb_dim b)%nat idx ltac:(lia)) as [k' [b' [r [I [Eb [Hr [Hf [Hn Hw]]]]]]]].
      exists k', b', r. split; [right; auto|]. split; auto. split; auto. rewrite andb_false_r.
      destruct (Nat.ltb_spec idx (count + kb_dim b)) as [H3|]; [lia|]. rewrite andb_false_r.
      split; auto. split; auto. rewrite nth_error_app2 by (rewrite map_length, seq_length; lia).
      rewrite map_length, seq_length. replace (idx - count - kb_dim b)%nat with (idx - (count + kb_dim b))%nat by lia. auto.
  - destruct (IH count idx ltac:(lia)) as [k' [b' [r [I [Eb [Hr [Hf [Hn Hw]]]]]]]].
    exists k', b', r. split; [right; auto|auto 10].
Qed.
Lemma sk_iter_length l count : length (sk_iter_from l count) = total l.
Proof.
  revert count. induction l as [|k l IH]; intros count; cbn [sk_iter_from]; auto. unfold total in *. cbn [map nsum fold_right].
  destruct (bk_basis k) as [b|]; cbn [odim]; [rewrite app_length, map_length, seq_length, IH; reflexivity|rewrite IH; reflexivity].
Qed.
Lemma sk_iter_in l : forall count k b r, In k l -> bk_basis k = Some b -> (r < kb_dim b)%nat ->
  exists idx, In (bk_ii k, bk_oo k, r, idx) (sk_iter_from l count).
Proof.
  induction l as [|k' l IH]; intros count k b r I E Hr; [destruct I|]. cbn [sk_iter_from]. destruct I as [->|I].
  - rewrite E. exists (count + r)%nat. apply in_or_app. left. apply in_map_iff. exists r. split; auto. apply in_seq. lia.
  - destruct (bk_basis k') as [b'|].
    + destruct (IH (count + kb_dim b')%nat k b r I E Hr) as [idx H]. exists idx. apply in_or_app. auto.
    + apply (IH count k b r); auto.
Qed.

(** keys of the blocks *)
Definition bkey (k : skblock) : nat * nat := (bk_ii k, bk_oo k).
Lemma sk_row_keys ii ip is oo op os bs : length bs = length os ->
  map bkey (sk_row ii ip is oo op os bs) = map (fun o => (ii, o)) (seq oo (length os)) /\
  map bk_basis (sk_row ii ip is oo op os bs) = bs.
Proof.
  revert oo op bs. induction os as [|o os IH]; intros oo op [|b bs] H; try discriminate; cbn; auto.
  injection H as H. destruct (IH (S oo) (op + o)%nat bs H) as [-> ->]. auto.
Qed.
Lemma sk_rows_keys ii ip is os bss : length bss = length is -> Forall (fun bs => length bs = length os) bss ->
  map bkey (sk_rows ii ip is os bss) = list_prod (seq ii (length is)) (seq 0 (length os)) /\
  map bk_basis (sk_rows ii ip is os bss) = concat bss.
Proof.
  revert ii ip bss. induction is as [|i is IH]; intros ii ip [|bs bss] H F; try discriminate; cbn [sk_rows map length seq list_prod concat]; auto.
  injection H as H. inversion F; subst. destruct (IH (S ii) (ip + i)%nat bss H) as [E1 E2]; auto.
  destruct (sk_row_keys ii ip i 0 0 os bs) as [E3 E4]; auto. rewrite !map_app, E1, E2, E3, E4. auto.
Qed.
Lemma nodup_list_prod {A B} (l : list A) (l' : list B) : NoDup l -> NoDup l' -> NoDup (list_prod l l').
Proof.
  intros H H'. induction H as [|x l Hx Hl IH]; cbn; [constructor|].
  apply nodup_app; auto.
  - apply FinFun.Injective_map_NoDup; auto. intros a b E. congruence.
  - intros [a b] I1 I2. apply in_map_iff in I1. destruct I1 as [y [E Iy]]. injection E as <- <-. apply in_prod_iff in I2. tauto.
Qed.

Definition akey (t : skattr) : nat * nat * nat := fst t.
Lemma iter_key_in l count t : In t (sk_iter_from l count) -> exists k, In k l /\ bkey k = fst (akey t).
Proof.
  revert count. induction l as [|k l IH]; intros count I; [destruct I|]. cbn [sk_iter_from] in I.
  destruct (bk_basis k) as [b|].
  - apply in_app_or in I. destruct I as [I|I].
    + apply in_map_iff in I. destruct I as [r [<- _]]. exists k. split; [left; auto|reflexivity].
    + destruct (IH _ I) as [k' [I' E]]. exists k'. split; [right; auto|auto].
  - destruct (IH _ I) as [k' [I' E]]. exists k'. split; [right; auto|auto].
Qed.
Lemma iter_nodup l count : NoDup (map bkey l) -> NoDup (map akey (sk_iter_from l count)).
Proof.
  revert count. induction l as [|k l IH]; intros count H; cbn [sk_iter_from map]; [constructor|].
  cbn [map] in H. inversion H as [|? ? H1 H2]; subst. destruct (bk_basis k) as [b|]; auto.
  rewrite map_app, map_map. apply nodup_app.
  - apply FinFun.Injective_map_NoDup; [|apply seq_NoDup]. intros x y E. unfold akey in E. cbn in E. congruence.
  - apply IH; auto.
  - intros t I1 I2. apply in_map_iff in I1. destruct I1 as [r [<- _]].
    apply in_map_iff in I2. destruct I2 as [t' [E I2]]. destruct (iter_key_in _ _ _ I2) as [k' [I' E']].
    apply H1. apply in_map_iff. exists k'. split; auto. rewrite E', E. reflexivity.
Qed.

Section C27.
Context {G : Type}.
Variables (mk : irrep G -> irrep G -> result kbasis) (rin rout : rep G).
Variable sk : skbasis G.
Hypothesis Hsk : sk_make mk rin rout = Ok sk.

Lemma rmap_length {A B} (f : A -> result B) l l' : rmap f l = Ok l' -> length l' = length l.
Proof.
  revert l'. induction l as [|a l IH]; intros l' H; cbn in H; [injection H as <-; auto|].
  destruct (f a); [|discriminate]. cbn [rbind] in H. destruct (rmap f l) as [l''|]; [|discriminate]. cbn [rbind] in H. injection H as <-.
  cbn. f_equal. apply IH. reflexivity.
Qed.
Lemma rmap_forall {A B} (f : A -> result B) l l' (P : B -> Prop) : rmap f l = Ok l' -> (forall a b, f a = Ok b -> P b) -> Forall P l'.
Proof.
  intros H HP. revert l' H. induction l as [|a l IH]; intros l' H; cbn in H; [injection H as <-; constructor|].
  destruct (f a) eqn:E; [|discriminate]. cbn [rbind] in H. destruct (rmap f l) as [l''|]; [|discriminate]. cbn [rbind] in H. injection H as <-.
  constructor; [eapply HP; eauto|apply IH; auto].
Qed.

Lemma blocks_facts :
  map bkey (sk_blocks sk) = list_prod (seq 0 (length (rp_irreps rin))) (seq 0 (length (rp_irreps rout))) /\
  total (sk_blocks sk) = sk_dim sk /\
  forall k, In k (sk_blocks sk) -> exists l1 i l2 m1 o m2, rp_irreps rin = l1 ++ i :: l2 /\ rp_irreps rout = m1 ++ o :: m2 /\
     block_of mk k l1 i l2 m1 o m2.
Proof.
  destruct (sk_make_inv mk rin rout sk Hsk) as [E1 [E2 [_ [_ [ER _]]]]].
  unfold sk_blocks. rewrite E1, E2.
  destruct (sk_rows_keys 0 0 (map ir_size (rp_irreps rin)) (map ir_size (rp_irreps rout)) (sk_bases sk)) as [K1 K2].
  - rewrite (rmap_length _ _ _ ER), map_length. reflexivity.
  - apply (rmap_forall _ _ _ _ ER). intros a b H. rewrite (rmap_length _ _ _ H), map_length. reflexivity.
  - rewrite !map_length in K1. split; auto. split.
    + unfold total, sk_dim. rewrite <- K2. rewrite map_map. reflexivity.
    + intros k I. destruct (sk_rows_in mk (rp_irreps rin) (rp_irreps rout) (sk_bases sk) k [] ER I) as [l1 [i [l2 [m1 [o [m2 H]]]]]].
      exists l1, i, l2, m1, o, m2. exact H.
Qed.

(** element idx *)
Lemma sk_element idx : (idx < sk_dim sk)%nat ->
  exists ii oo r i o b,
    nth_error (rp_irreps rin) ii = Some i /\ nth_error (rp_irreps rout) oo = Some o /\
    mk i o = Ok b /\ (r < kb_dim b)%nat /\
    sk_getitem sk idx = Ok (Some (ii, oo, r, idx)) /\
    nth_error (sk_iter sk) idx = Some (ii, oo, r, idx) /\
    forall a, meq (rp_size rout) (rp_size rin) (sk_sample sk idx a)
      (mmul (rp_size rin) (mmul (rp_size rout) (rp_cob rout)
         (embed (isizes (firstn oo (rp_irreps rout))) (isizes (firstn ii (rp_irreps rin))) (ir_size o) (ir_size i) (kb_sample b r a)))
         (rp_inv rin)).
Proof.
  intros H. destruct blocks_facts as [_ [ET HB]]. 
  destruct (sk_walk (sk_blocks sk) 0 idx ltac:(lia)) as [k [b [r [I [Eb [Hr [Hf [Hn Hw]]]]]]]].
  destruct (HB k I) as [l1 [i [l2 [m1 [o [m2 [Li [Lo B]]]]]]]]. destruct B as (B0 & B0' & B1 & B2 & B3 & B4 & B5).
  assert (Mb : mk i o = Ok b).
  { unfold try_basis in B5. rewrite Eb in B5. destruct (mk i o) as [b'|x]; [congruence|]. destruct (String.eqb x _); discriminate. }
  assert (F : forall (l1 : list (irrep G)) i l2, firstn (length l1) (l1 ++ i :: l2) = l1).
  { clear. intros l1 i l2. rewrite firstn_app, firstn_all, Nat.sub_diag. cbn. apply app_nil_r. }
  assert (NE : forall (l1 : list (irrep G)) i l2, nth_error (l1 ++ i :: l2) (length l1) = Some i).
  { clear. intros. rewrite nth_error_app2, Nat.sub_diag; auto. }
  exists (bk_ii k), (bk_oo k), r, i, o, b. rewrite B0, B0'.
  split; [rewrite Li; apply NE|]. split; [rewrite Lo; apply NE|]. split; auto. split; auto.
  split; [unfold sk_getitem, assert_; destruct (Nat.ltb_spec idx (sk_dim sk)); [rewrite Hf, B0, B0'; auto|lia]|].
  split; [unfold sk_iter; rewrite Nat.sub_0_r in Hn; rewrite Hn, B0, B0'; auto|].
  intros a. etransitivity; [apply (sk_sample_form mk rin rout sk idx a Hsk)|].
  apply mmul_compat; [|reflexivity]. apply mmul_compat; [reflexivity|]. rewrite Hw.
  intros x y _ _. rewrite place_embed, B1, B2, B3, B4, Li, Lo, !F. reflexivity.
Qed.

(** the maps between flat and nested indices are inverse to each other *)
Lemma sk_nested ii oo i o b r :
  nth_error (rp_irreps rin) ii = Some i -> nth_error (rp_irreps rout) oo = Some o -> mk i o = Ok b -> (r < kb_dim b)%nat ->
  exists! idx, (idx < sk_dim sk)%nat /\ sk_getitem sk idx = Ok (Some (ii, oo, r, idx)).
Proof.
  intros Hi Ho Hb Hr. destruct blocks_facts as [EK [ET HB]].
  assert (ND : NoDup (map akey (sk_iter sk))).
  { apply iter_nodup. rewrite EK. apply nodup_list_prod; apply seq_NoDup. }
  assert (I : In (ii, oo) (map bkey (sk_blocks sk))).
  { rewrite EK. apply in_prod; apply in_seq; (split; [lia|]); [assert (X := proj1 (nth_error_Some (rp_irreps rin) ii)); rewrite Hi in X|assert (X := proj1 (nth_error_Some (rp_irreps rout) oo)); rewrite Ho in X]; cbn; apply X; discriminate. }
  apply in_map_iff in I. destruct I as [k [Ek I]]. unfold bkey in Ek. injection Ek as Ek1 Ek2.
  destruct (HB k I) as [l1 [i' [l2 [m1 [o' [m2 [Li [Lo B]]]]]]]]. destruct B as (B0 & B0' & B1 & B2 & B3 & B4 & B5).
  assert (NE : forall (l1 : list (irrep G)) i l2, nth_error (l1 ++ i :: l2) (length l1) = Some i).
  { clear. intros. rewrite nth_error_app2, Nat.sub_diag; auto. }
  rewrite Li, <- Ek1, B0, NE in Hi. injection Hi as ->. rewrite Lo, <- Ek2, B0', NE in Ho. injection Ho as ->.
  unfold try_basis in B5. rewrite Hb in B5. injection B5 as B5.
  destruct (sk_iter_in (sk_blocks sk) 0 k b r I (eq_sym B5) Hr) as [x Ix]. fold (sk_iter sk) in Ix.
  unfold skattr in Ix. apply In_nth_error in Ix. destruct Ix as [idx Hx].
  assert (L : (idx < sk_dim sk)%nat).
  { rewrite <- ET, <- (sk_iter_length (sk_blocks sk) 0). apply nth_error_Some. intros Hc. change (nth_error (sk_iter sk) idx = None) in Hc. unfold skattr in Hc. rewrite Hx in Hc. discriminate. }
  destruct (sk_element idx L) as [ii' [oo' [r' [i1 [o1 [b1 [_ [_ [_ [_ [G1 [G2 _]]]]]]]]]]]].
  unfold skattr in G2. rewrite G2 in Hx. injection Hx as -> -> -> <-.
  exists idx. split.
  - split; auto. rewrite G1, Ek1, Ek2. reflexivity.
  - intros y [Ly Gy]. destruct (sk_element y Ly) as [ii2 [oo2 [r2 [i2 [o2 [b2 [_ [_ [_ [_ [H1 [H2 _]]]]]]]]]]]].
    rewrite Gy in H1. injection H1 as -> -> ->.
    assert (E : nth_error (map akey (sk_iter sk)) idx = nth_error (map akey (sk_iter sk)) y).
    { rewrite !nth_error_map. unfold skattr in H2 |- *. rewrite G2, H2. cbn. rewrite Ek1, Ek2. reflexivity. }
    apply (proj1 (NoDup_nth_error _) ND idx y); [|exact E].
    rewrite map_length. unfold sk_iter. rewrite sk_iter_length, ET. exact L.
Qed.
Lemma sk_out_of_range idx : (sk_dim sk <= idx)%nat -> sk_getitem sk idx = Err "AssertionError"%string.
Proof. intros H. unfold sk_getitem, assert_. destruct (Nat.ltb_spec idx (sk_dim sk)); [lia|auto]. Qed.
Lemma sk_iter_len : length (sk_iter sk) = sk_dim sk.
Proof. unfold sk_iter. rewrite sk_iter_length. apply blocks_facts. Qed.
End C27.

(** *** product basis *)
Lemma polar_iter_spec adim l1 : forall idx0 i, (0 < adim)%nat -> (i < length l1 * adim)%nat ->
  nth_error (polar_iter_from l1 (seq 0 adim) idx0) i = Some (nth (i / adim) l1 0, i mod adim, idx0 + i)%nat.
Proof.
  induction l1 as [|x l1 IH]; intros idx0 i HA H; cbn [length] in H; [lia|]. cbn [polar_iter_from]. rewrite seq_length.
  assert (LC : length (combine (seq 0 adim) (seq 0 adim)) = adim) by (rewrite combine_length, seq_length; lia).
  destruct (Nat.lt_ge_cases i adim) as [L|L].
  - rewrite nth_error_app1 by (rewrite map_length, LC; auto). rewrite nth_error_map.
    rewrite (nth_error_nth' _ (0, 0)%nat) by (rewrite LC; auto). rewrite combine_nth, !seq_nth by (rewrite ?seq_length; auto).
    cbn [option_map fst snd]. rewrite Nat.div_small, Nat.mod_small by auto. reflexivity.
  - rewrite nth_error_app2 by (rewrite map_length, LC; auto). rewrite map_length, LC.
    rewrite IH by lia.
    assert (E : i = ((i - adim) + 1 * adim)%nat) by lia.
    assert (E1 : (i / adim = S ((i - adim) / adim))%nat) by (rewrite E at 1; rewrite Nat.div_add by lia; lia).
    assert (E2 : (i mod adim = (i - adim) mod adim)%nat) by (rewrite E at 1; rewrite Nat.mod_add by lia; lia).
    rewrite E1, E2. cbn [nth]. do 2 f_equal. lia.
Qed.
Lemma polar_iter_length adim l1 idx0 : length (polar_iter_from l1 (seq 0 adim) idx0) = (length l1 * adim)%nat.
Proof.
  revert idx0. induction l1 as [|x l1 IH]; intros idx0; cbn [polar_iter_from length]; auto.
  rewrite app_length, map_length, combine_length, IH, !seq_length, Nat.min_id. reflexivity.
Qed.
