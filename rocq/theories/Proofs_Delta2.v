(** The delta-orthogonal initialisation: success and values. *)
From Coq Require Import Reals ZArith String List Bool Lia Lra.
From Verif Require Import Base Model_Groups Model_Rep Model_FieldType Model_Utils Model_Modules Model_Fieldwise Model_Expansion Model_Conv Model_Init Model_Delta Spec_Delta
  Proofs_FieldType Proofs_Fieldwise2 Proofs_Delta.
Import ListNotations.
Open Scope R_scope.

Lemma enumerate_in {A} (l : list A) d i a : In (i, a) (enumerate l) <-> (i < length l)%nat /\ nth i l d = a.
Proof.
  unfold enumerate. assert (G : forall p, In (i, a) (combine (seq p (length l)) l) <-> (p <= i /\ i - p < length l)%nat /\ nth (i - p) l d = a).
  { induction l as [|b l IH]; intros p; cbn [length seq combine In nth]. { split; [intros []|]. intros [[_ H] _]. lia. }
    rewrite IH. split.
    - intros [E|[[H1 H2] H3]]. { injection E as <- <-. rewrite Nat.sub_diag. split; [lia|reflexivity]. } replace (i - p)%nat with (S (i - S p)) by lia. split; [lia|exact H3].
    - intros [[H1 H2] H3]. destruct (Nat.eq_dec p i) as [->|Hn]; [left; rewrite Nat.sub_diag in H3; congruence|]. right. replace (i - p)%nat with (S (i - S p)) in H2, H3 by lia. split; [lia|exact H3]. }
  rewrite G, Nat.sub_0_r. intuition lia.
Qed.
Lemma enumerate_nodup {A} (l : list A) : NoDup (enumerate l).
Proof.
  unfold enumerate. assert (G : forall p, NoDup (combine (seq p (length l)) l) /\ forall q, In q (combine (seq p (length l)) l) -> (p <= fst q)%nat).
  { induction l as [|b l IH]; intros p; cbn [length seq combine]; [split; [constructor|intros ? []]|]. destruct (IH (S p)) as [H1 H2]. split.
    - constructor; [|exact H1]. intros C. apply H2 in C. cbn in C. lia.
    - intros q [<-|Hq]; [cbn; lia|]. apply H2 in Hq. lia. }
  apply G.
Qed.
Lemma nodup_flat_map {A B} (f : A -> list B) l : NoDup l -> (forall a, In a l -> NoDup (f a)) ->
  (forall a a' b, In a l -> In a' l -> In b (f a) -> In b (f a') -> a = a') -> NoDup (flat_map f l).
Proof.
  induction l as [|a l IH]; intros H F D; [constructor|]. inversion H as [|? ? H1 H2]; subst. cbn [flat_map].
  assert (G : forall (x y : list B), NoDup x -> NoDup y -> (forall b, In b x -> In b y -> False) -> NoDup (x ++ y)).
  { clear. induction x as [|b x IH]; intros y Hx Hy Hd; [exact Hy|]. inversion Hx as [|? ? X1 X2]; subst. cbn. constructor.
    - rewrite in_app_iff. intros [C|C]; [auto|]. apply (Hd b); [left; auto|auto].
    - apply IH; auto. intros c Hc. apply Hd. right. auto. }
  apply G; [apply F; left; auto|apply IH; auto|].
  - intros b Hb. apply F. right. auto.
  - intros b c d Hb Hc. apply D; right; auto.
  - intros b Hb Hc. apply in_flat_map in Hc as (c & Hc & Hbc). apply H1. rewrite (D a c b); auto; [left; auto|right; auto].
Qed.
Lemma map_flat_map {A B C} (g : B -> C) (f : A -> list B) l : map g (flat_map f l) = flat_map (fun a => map g (f a)) l.
Proof. induction l as [|a l IH]; [reflexivity|]. cbn. rewrite map_app, IH. reflexivity. Qed.
Lemma map_enumerate {A} (l : list A) : map snd (enumerate l) = l.
Proof. unfold enumerate. assert (G : forall p, map snd (combine (seq p (length l)) l) = l) by (induction l as [|a l IH]; intros p; [reflexivity|]; cbn; rewrite IH; reflexivity). apply G. Qed.

Section Run.
Context {N : Type} (neqb : N -> N -> bool) (NE : forall a b, reflect (a = b) (neqb a b)) (ortho : N -> nat -> mat) (normal : N -> mat).
Context (infos : list (dentry N)) (sel : list (@dsel N)) (SE : delta_selected neqb 0 infos = Ok sel).

Definition d_keys n := delta_keys (delta_of neqb sel n).
Definition d_ins n := delta_ins (d_keys n).
Definition d_outs n := delta_outs (d_keys n).
Definition d_s n := match d_keys n with [] => 0%nat | k :: _ => length (weights neqb infos n (fst k) (snd k)) end.
Definition d_val n (i o p : nat) : R := delta_w normal n (d_s n) o p * delta_W ortho n (length (d_ins n)) (length (d_outs n)) o i.
Definition d_assign n : list (nat * R) :=
  flat_map (fun i => flat_map (fun o => map (fun p => (snd p, d_val n (fst i) (fst o) (fst p)))
         (enumerate (weights neqb infos n (snd i) (snd o)))) (enumerate (d_outs n))) (enumerate (d_ins n)).
(** what the assertions of one iteration mean *)
Definition balanced_at n : Prop := forall i o i' o', input_of neqb infos n i -> output_of neqb infos n o -> input_of neqb infos n i' -> output_of neqb infos n o' ->
    length (weights neqb infos n i o) = length (weights neqb infos n i' o').
Lemma flat_map_ext_in {A B} (f g : A -> list B) l : (forall a, In a l -> f a = g a) -> flat_map f l = flat_map g l.
Proof. induction l as [|a l IH]; intros H; [reflexivity|]. cbn. rewrite H, IH by (auto with datatypes). reflexivity. Qed.
Lemma irrep_run n : In n (delta_irreps neqb sel) -> balanced_at n -> delta_irrep neqb ortho normal sel n = Ok (d_assign n).
Proof.
  intros Hn B. apply (irreps_in neqb NE infos sel SE) in Hn as (i0 & o0 & H0).
  assert (K0 : In (i0, o0) (d_keys n)) by (apply (keys_in neqb NE infos sel SE); exact H0).
  assert (ND : NoDup (d_keys n)) by apply keys_nodup.
  assert (I0 : input_of neqb infos n i0) by (exists o0; exact H0). assert (O0 : output_of neqb infos n o0) by (exists i0; exact H0).
  assert (F : full (d_keys n)).
  { intros i o Hi Ho. apply (input_in neqb NE infos sel SE) in Hi. apply (output_in neqb NE infos sel SE) in Ho. apply (keys_in neqb NE infos sel SE). intros C. apply H0. apply length_zero_iff_nil. rewrite (B i0 o0 i o I0 O0 Hi Ho), C. reflexivity. }
  assert (LS : forall k, In k (d_keys n) -> length (delta_slots (delta_of neqb sel n) k) = length (weights neqb infos n i0 o0)).
  { intros [i o] Hk. rewrite (slots_weights neqb NE infos sel SE). apply (keys_in neqb NE infos sel SE) in Hk. apply B; auto; [exists o|exists i]; auto. }
  unfold delta_irrep. fold (d_keys n). fold (d_ins n). fold (d_outs n).
  assert (A1 : same_content (map (fun k => length (delta_slots (delta_of neqb sel n) k)) (d_keys n)) = true).
  { apply same_content_spec. intros a b Ha Hb. apply in_map_iff in Ha as (k & <- & Hk), Hb as (k' & <- & Hk'). rewrite !LS by auto. reflexivity. }
  assert (A2 : forall i, In i (d_ins n) -> in_c (d_keys n) i = length (d_outs n)) by (intros i Hi; apply full_in_c; auto).
  assert (A3 : forall o, In o (d_outs n) -> out_c (d_keys n) o = length (d_ins n)) by (intros o Ho; apply full_out_c; auto).
  assert (A4 : same_content (map (in_c (d_keys n)) (d_ins n)) = true).
  { apply same_content_spec. intros a b Ha Hb. apply in_map_iff in Ha as (k & <- & Hk), Hb as (k' & <- & Hk'). rewrite !A2 by auto. reflexivity. }
  assert (A5 : same_content (map (out_c (d_keys n)) (d_outs n)) = true).
  { apply same_content_spec. intros a b Ha Hb. apply in_map_iff in Ha as (k & <- & Hk), Hb as (k' & <- & Hk'). rewrite !A3 by auto. reflexivity. }
  rewrite A1, A4, A5. cbn [assert_].
  assert (Hi0 : In i0 (d_ins n)) by (apply (input_in neqb NE infos sel SE); auto). assert (Ho0 : In o0 (d_outs n)) by (apply (output_in neqb NE infos sel SE); auto).
  assert (V1 : first_value (map (in_c (d_keys n)) (d_ins n)) = Ok (length (d_outs n))).
  { destruct (d_ins n) as [|i q]; [destruct Hi0|]. cbn [map first_value]. rewrite A2 by (left; auto). reflexivity. }
  assert (V2 : first_value (map (out_c (d_keys n)) (d_outs n)) = Ok (length (d_ins n))).
  { destruct (d_outs n) as [|i q]; [destruct Ho0|]. cbn [map first_value]. rewrite A3 by (left; auto). reflexivity. }
  assert (V3 : first_value (map (fun k => length (delta_slots (delta_of neqb sel n) k)) (d_keys n)) = Ok (d_s n)).
  { unfold d_s. destruct (d_keys n) as [|[i o] q]; [destruct K0|]. cbn [map first_value fst snd]. rewrite (slots_weights neqb NE infos sel SE). reflexivity. }
  rewrite V1, V2. cbn [rbind]. rewrite !Nat.eqb_refl. cbn [assert_]. rewrite V3. cbn [rbind]. f_equal. unfold d_assign.
  apply flat_map_ext_in. intros [i ip] _. apply flat_map_ext_in. intros [o op] _. cbn [fst snd]. rewrite (slots_weights neqb NE infos sel SE). reflexivity.
Qed.
Lemma irrep_balanced n l : delta_irrep neqb ortho normal sel n = Ok l -> balanced_at n.
Proof.
  unfold delta_irrep. fold (d_keys n). fold (d_ins n). fold (d_outs n).
  destruct (same_content (map (fun k => length (delta_slots (delta_of neqb sel n) k)) (d_keys n))) eqn:E1; [|discriminate]. cbn [assert_].
  destruct (same_content (map (in_c (d_keys n)) (d_ins n))) eqn:E2; [|discriminate]. cbn [assert_].
  destruct (same_content (map (out_c (d_keys n)) (d_outs n))) eqn:E3; [|discriminate]. cbn [assert_].
  destruct (first_value (map (in_c (d_keys n)) (d_ins n))) as [a|] eqn:E4; [|discriminate]. cbn [rbind].
  destruct (a =? length (d_outs n))%nat eqn:E5; [|discriminate]. intros _.
  rewrite same_content_spec in E1, E2. apply Nat.eqb_eq in E5.
  assert (F : full (d_keys n)).
  { apply in_c_full; [apply keys_nodup|]. fold (d_ins n) (d_outs n). intros i Hi. rewrite <- E5. apply E2; [apply in_map; exact Hi|]. destruct (map (in_c (d_keys n)) (d_ins n)) as [|b q]; [discriminate|]. cbn in E4. injection E4 as <-. left. reflexivity. }
  intros i o i' o' Hi Ho Hi' Ho'.
  apply (input_in neqb NE infos sel SE) in Hi, Hi'. apply (output_in neqb NE infos sel SE) in Ho, Ho'.
  rewrite <- !(slots_weights neqb NE infos sel SE). apply E1; apply in_map_iff; [exists (i, o)|exists (i', o')]; (split; [reflexivity|apply F; auto]).
Qed.

Lemma assign_in n x v : In (x, v) (d_assign n) <-> exists i o p, (i < length (d_ins n))%nat /\ (o < length (d_outs n))%nat /\
   (p < length (weights neqb infos n (nth i (d_ins n) 0%nat) (nth o (d_outs n) 0%nat)))%nat /\ x = nth p (weights neqb infos n (nth i (d_ins n) 0%nat) (nth o (d_outs n) 0%nat)) 0%nat /\ v = d_val n i o p.
Proof.
  unfold d_assign. rewrite in_flat_map. split.
  - intros ([i ip] & Hi & H). apply in_flat_map in H as ([o op] & Ho & H). apply in_map_iff in H as ([p pp] & E & Hp). cbn [fst snd] in *.
    apply (enumerate_in _ 0%nat) in Hi as [Hi <-], Ho as [Ho <-], Hp as [Hp <-]. injection E as <- <-. exists i, o, p. auto.
  - intros (i & o & p & Hi & Ho & Hp & -> & ->). exists (i, nth i (d_ins n) 0%nat). split; [apply (enumerate_in _ 0%nat); auto|].
    apply in_flat_map. exists (o, nth o (d_outs n) 0%nat). split; [apply (enumerate_in _ 0%nat); auto|]. apply in_map_iff. eexists (p, _). split; [reflexivity|]. cbn [fst snd]. apply (enumerate_in _ 0%nat); auto.
Qed.
Lemma assign_index n x : In x (map fst (d_assign n)) -> exists i o, In x (weights neqb infos n i o).
Proof. intros H. apply in_map_iff in H as ([x' v] & <- & H). apply assign_in in H as (i & o & p & _ & _ & Hp & -> & _). exists (nth i (d_ins n) 0%nat), (nth o (d_outs n) 0%nat). apply nth_In. exact Hp. Qed.
Lemma assign_nodup n : NoDup (map fst (d_assign n)).
Proof.
  unfold d_assign. rewrite map_flat_map.
  assert (W : forall i o, map fst (map (fun p : nat * nat => (snd p, d_val n (fst (i : nat * nat)) (fst (o : nat * nat)) (fst p))) (enumerate (weights neqb infos n (snd i) (snd o)))) = weights neqb infos n (snd i) (snd o)).
  { intros i o. rewrite map_map. cbn [fst]. apply map_enumerate. }
  apply nodup_flat_map; [apply enumerate_nodup| |].
  - intros i Hi. rewrite map_flat_map. apply nodup_flat_map; [apply enumerate_nodup| |].
    + intros o Ho. rewrite W. apply weights_nodup.
    + intros [o op] [o' op'] x Ho Ho'. rewrite !W. cbn [snd]. intros H H'. destruct (weights_once neqb NE infos _ _ _ _ _ _ x H H') as (_ & _ & <-).
      apply (enumerate_in _ 0%nat) in Ho as [Ho E], Ho' as [Ho' E']. f_equal. apply (proj1 (NoDup_nth (d_outs n) 0%nat) (outs_nodup _)); auto. congruence.
  - intros [i ip] [i' ip'] x Hi Hi' H H'. rewrite map_flat_map in H, H'. apply in_flat_map in H as (o & Ho & H), H' as (o' & Ho' & H'). rewrite W in H, H'. cbn [snd] in *.
    destruct (weights_once neqb NE infos _ _ _ _ _ _ x H H') as (_ & <- & _). apply (enumerate_in _ 0%nat) in Hi as [Hi E], Hi' as [Hi' E']. f_equal. apply (proj1 (NoDup_nth (d_ins n) 0%nat) (ins_nodup _)); auto. congruence.
Qed.

Lemma loop_run ns : NoDup ns -> (forall n, In n ns -> In n (delta_irreps neqb sel) /\ balanced_at n) -> forall t, length t = length infos ->
  exists T, delta_loop neqb ortho normal sel ns t = Ok T /\ length T = length infos /\
    (forall n x v, In n ns -> In (x, v) (d_assign n) -> nth x T 0 = v) /\
    (forall x, (forall n, In n ns -> ~ In x (map fst (d_assign n))) -> nth x T 0 = nth x t 0).
Proof.
  induction ns as [|n ns IH]; intros ND B t L.
  - exists t. split; [reflexivity|]. split; [exact L|]. split; [intros ? ? ? []|auto].
  - inversion ND as [|? ? N1 N2]; subst. destruct (B n (or_introl eq_refl)) as [B1 B2].
    destruct (puts_spec (d_assign n) t (assign_nodup n)) as (t1 & P1 & P2 & P3 & P4).
    { intros [x v] H. cbn [fst]. rewrite L. destruct (assign_index n x) as (i & o & Hx); [apply (in_map fst) in H; exact H|]. apply weights_lt in Hx. exact Hx. }
    destruct (IH N2 (fun m Hm => B m (or_intror Hm)) t1) as (T & Q1 & Q2 & Q3 & Q4); [lia|].
    exists T. split. { cbn [delta_loop]. rewrite (irrep_run n B1 B2). cbn [rbind]. change (rbind (puts (d_assign n) (Ok t)) (fun t0 => delta_loop neqb ortho normal sel ns t0) = Ok T). rewrite P1. exact Q1. }
    split; [exact Q2|]. split.
    + intros m x v [<-|Hm] H; [|eauto]. rewrite Q4; [eauto|]. intros m Hm C. apply assign_index in C as (i & o & C).
      destruct (assign_index n x) as (i' & o' & C'); [apply (in_map fst) in H; exact H|]. destruct (weights_once neqb NE infos _ _ _ _ _ _ x C C') as (-> & _). auto.
    + intros x H. rewrite Q4, P4; auto; [apply H; left; auto|]. intros m Hm. apply H. right. auto.
Qed.
Lemma loop_balanced ns : forall t T, delta_loop neqb ortho normal sel ns t = Ok T -> forall n, In n ns -> balanced_at n.
Proof.
  induction ns as [|m ns IH]; intros t T H n Hn; [destruct Hn|]. cbn [delta_loop] in H.
  destruct (delta_irrep neqb ortho normal sel m) as [l|] eqn:E; [|discriminate]. cbn [rbind] in H.
  destruct (fold_left _ l (Ok t)) as [t1|] eqn:E1 in H; [|discriminate]. cbn [rbind] in H.
  destruct Hn as [<-|Hn]; [eapply irrep_balanced; eauto|eauto].
Qed.
End Run.

(** * Orthogonality *)
Section Ortho.
Context {N : Type} (ortho : N -> nat -> mat) (normal : N -> mat).
Context (OR : forall n k, orthogonal k (ortho n k)) (NZ : forall n o p, normal n o p <> 0).
Lemma w_unit n s o : (0 < s)%nat -> rsum s (fun p => delta_w normal n s o p ^ 2) = 1.
Proof.
  intros Hs. unfold delta_w. set (Q := rsum s (fun q => (normal n o q * 5) ^ 2)).
  assert (HQ : 0 < Q). { unfold Q. destruct s as [|s]; [lia|]. rewrite rsum_S_l. assert (0 < (normal n o 0%nat * 5) ^ 2) by (replace ((normal n o 0%nat * 5) ^ 2) with (Rsqr (normal n o 0%nat * 5)) by (unfold Rsqr; ring); apply Rsqr_pos_lt; intros C; apply (NZ n o 0%nat); lra).
    assert (0 <= rsum s (fun i => (normal n o (S i) * 5) ^ 2)) by (apply rsum_nonneg; intros; apply pow2_ge_0). lra. }
  rewrite (rsum_ext s _ (fun p => (normal n o p * 5) ^ 2 * / Q)).
  - rewrite rsum_scal_r. fold Q. field. lra.
  - intros p _. unfold Rdiv. rewrite Rpow_mult_distr. f_equal. rewrite pow_inv, pow2_sqrt by lra. reflexivity.
Qed.
Lemma W_rows n ni no o o' : (0 < ni)%nat -> (no <= ni)%nat -> (o < no)%nat -> (o' < no)%nat ->
  rsum ni (fun i => delta_W ortho n ni no o i * delta_W ortho n ni no o' i) = if Nat.eqb o o' then 1 else 0.
Proof.
  intros H0 H1 H2 H3. unfold delta_W. destruct (1 <? Nat.max no ni)%nat eqn:E.
  - replace (Nat.max ni no) with ni by lia. destruct (OR n ni) as [A _]. specialize (A o o' ltac:(lia) ltac:(lia)). exact A.
  - apply Nat.ltb_ge in E. assert (ni = 1%nat) by lia. assert (o = 0%nat) by lia. assert (o' = 0%nat) by lia. subst. cbn. ring.
Qed.
Lemma W_cols n ni no i i' : (0 < no)%nat -> (ni <= no)%nat -> (i < ni)%nat -> (i' < ni)%nat ->
  rsum no (fun o => delta_W ortho n ni no o i * delta_W ortho n ni no o i') = if Nat.eqb i i' then 1 else 0.
Proof.
  intros H0 H1 H2 H3. unfold delta_W. destruct (1 <? Nat.max no ni)%nat eqn:E.
  - replace (Nat.max ni no) with no by lia. destruct (OR n no) as [_ A]. specialize (A i i' ltac:(lia) ltac:(lia)). exact A.
  - apply Nat.ltb_ge in E. assert (no = 1%nat) by lia. assert (i = 0%nat) by lia. assert (i' = 0%nat) by lia. subst. cbn. ring.
Qed.
End Ortho.
