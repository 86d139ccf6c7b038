(** The delta-orthogonal initialisation. *)
From Coq Require Import Reals ZArith String List Bool Lia Lra.
From Verif Require Import Base Model_Groups Model_Rep Model_FieldType Model_Utils Model_Modules Model_Fieldwise Model_Expansion Model_Conv Model_Init Model_Delta Spec_Delta
  Proofs_FieldType Proofs_Fieldwise2.
Import ListNotations.
Open Scope R_scope.

Lemma total_nth (l : list nat) f : total l f = rsum (length l) (fun i => f (nth i l 0%nat)).
Proof. induction l as [|a l IH]; [reflexivity|]. cbn [length]. rewrite rsum_S_l. cbn [total fold_right nth]. fold (total l f). rewrite IH. reflexivity. Qed.
Lemma same_content_spec l : same_content l = true <-> (forall a b, In a l -> In b l -> a = b).
Proof.
  destruct l as [|a l]; [cbn; split; [intros _ ? ? []|reflexivity]|]. unfold same_content. rewrite forallb_forall. split.
  - intros H x y Hx Hy. apply H in Hx, Hy. apply Nat.eqb_eq in Hx, Hy. congruence.
  - intros H x Hx. apply Nat.eqb_eq. apply H; [exact Hx|left; reflexivity].
Qed.

(** * Full products of positions *)
Section Keys.
Context (keys : list (nat * nat)) (ND : NoDup keys).
Lemma ins_in i : In i (delta_ins keys) <-> exists o, In (i, o) keys.
Proof. unfold delta_ins. rewrite (first_seen_in Nat.eqb Nat.eqb_spec), in_map_iff. split; [intros ([i' o] & <- & H); eauto|intros [o H]; exists (i, o); auto]. Qed.
Lemma outs_in o : In o (delta_outs keys) <-> exists i, In (i, o) keys.
Proof. unfold delta_outs. rewrite (first_seen_in Nat.eqb Nat.eqb_spec), in_map_iff. split; [intros ([i o'] & <- & H); eauto|intros [i H]; exists (i, o); auto]. Qed.
Lemma ins_nodup : NoDup (delta_ins keys). Proof. apply (first_seen_nodup Nat.eqb Nat.eqb_spec). Qed.
Lemma outs_nodup : NoDup (delta_outs keys). Proof. apply (first_seen_nodup Nat.eqb Nat.eqb_spec). Qed.
Definition full : Prop := forall i o, In i (delta_ins keys) -> In o (delta_outs keys) -> In (i, o) keys.
Definition row (i : nat) : list nat := map snd (filter (fun k => (fst k =? i)%nat) keys).
Definition col (o : nat) : list nat := map fst (filter (fun k => (snd k =? o)%nat) keys).
Lemma row_in i o : In o (row i) <-> In (i, o) keys.
Proof. unfold row. rewrite in_map_iff. split; [intros ([i' o'] & <- & H); apply filter_In in H as [H E]; apply Nat.eqb_eq in E; cbn in *; subst; auto|]. intros H. exists (i, o). rewrite filter_In. cbn. rewrite Nat.eqb_refl. auto. Qed.
Lemma col_in o i : In i (col o) <-> In (i, o) keys.
Proof. unfold col. rewrite in_map_iff. split; [intros ([i' o'] & <- & H); apply filter_In in H as [H E]; apply Nat.eqb_eq in E; cbn in *; subst; auto|]. intros H. exists (i, o). rewrite filter_In. cbn. rewrite Nat.eqb_refl. auto. Qed.
Lemma nodup_map_inj {A B} (f : A -> B) l : NoDup l -> (forall a b, In a l -> In b l -> f a = f b -> a = b) -> NoDup (map f l).
Proof.
  induction l as [|a l IH]; intros H F; [constructor|]. inversion H as [|? ? H1 H2]; subst. cbn. constructor.
  - intros C. apply in_map_iff in C as (b & E & Hb). apply H1. rewrite (F a b); auto; [left; auto|right; auto].
  - apply IH; auto. intros b c Hb Hc. apply F; right; auto.
Qed.
Lemma row_nodup i : NoDup (row i).
Proof. unfold row. apply nodup_map_inj; [apply NoDup_filter; exact ND|]. intros [a b] [c d] Ha Hc E. apply filter_In in Ha as [_ Ha], Hc as [_ Hc]. apply Nat.eqb_eq in Ha, Hc. cbn in *. congruence. Qed.
Lemma col_nodup o : NoDup (col o).
Proof. unfold col. apply nodup_map_inj; [apply NoDup_filter; exact ND|]. intros [a b] [c d] Ha Hc E. apply filter_In in Ha as [_ Ha], Hc as [_ Hc]. apply Nat.eqb_eq in Ha, Hc. cbn in *. congruence. Qed.
Lemma nodup_same_length {A} (l l' : list A) : NoDup l -> NoDup l' -> (forall a, In a l <-> In a l') -> length l = length l'.
Proof. intros H H' E. apply Nat.le_antisymm; apply NoDup_incl_length; auto; intros a Ha; apply E; auto. Qed.
Lemma full_in_c i : full -> In i (delta_ins keys) -> in_c keys i = length (delta_outs keys).
Proof.
  intros F Hi. unfold in_c. rewrite <- (map_length snd). fold (row i). apply nodup_same_length; [apply row_nodup|apply outs_nodup|]. intros o. rewrite row_in. split; [intros H; apply outs_in; eauto|apply F; auto].
Qed.
Lemma full_out_c o : full -> In o (delta_outs keys) -> out_c keys o = length (delta_ins keys).
Proof.
  intros F Ho. unfold out_c. rewrite <- (map_length fst). fold (col o). apply nodup_same_length; [apply col_nodup|apply ins_nodup|]. intros i. rewrite col_in. split; [intros H; apply ins_in; eauto|intros Hi; apply F; auto].
Qed.
Lemma in_c_full : (forall i, In i (delta_ins keys) -> in_c keys i = length (delta_outs keys)) -> full.
Proof.
  intros H i o Hi Ho. apply H in Hi. unfold in_c in Hi. rewrite <- (map_length snd) in Hi. fold (row i) in Hi. apply row_in.
  refine (NoDup_length_incl (l' := delta_outs keys) (row_nodup i) _ _ o Ho); [lia|]. intros o' Ho'. apply row_in in Ho'. apply outs_in. eauto.
Qed.
End Keys.

(** * Assignments *)
Lemma put_nth l w v : (w < length l)%nat -> exists l', put l w v = Ok l' /\ length l' = length l /\ nth w l' 0 = v /\ (forall x, x <> w -> nth x l' 0 = nth x l 0).
Proof.
  intros H. unfold put. apply Nat.ltb_lt in H as H'. rewrite H'. exists (firstn w l ++ v :: skipn (S w) l).
  assert (L : length (firstn w l) = w) by (apply firstn_length_le; lia).
  split; [reflexivity|]. split. { rewrite app_length, L. cbn [length]. rewrite skipn_length. lia. }
  split. { rewrite app_nth2 by lia. rewrite L, Nat.sub_diag. reflexivity. }
  intros x Hx. rewrite <- (firstn_skipn w l) at 3. destruct (Nat.lt_ge_cases x w) as [Hl|Hg].
  - rewrite !app_nth1 by lia. reflexivity.
  - rewrite !app_nth2 by lia. rewrite L. destruct (x - w)%nat as [|d] eqn:E; [lia|]. cbn [nth].
    destruct (skipn w l) as [|a q] eqn:ES. { apply (f_equal (@length _)) in ES. rewrite skipn_length in ES. cbn in ES. lia. }
    replace (S w) with (1 + w)%nat by lia. replace (skipn (1 + w) l) with q; [reflexivity|].
    clear - ES. revert l ES. induction w as [|w IH]; intros l ES; destruct l as [|b l]; cbn in *; try congruence. apply IH. exact ES.
Qed.
Definition puts (l : list (nat * R)) (t : result (list R)) : result (list R) := fold_left (fun acc a => rbind acc (fun t => put t (fst a) (snd a))) l t.
Lemma puts_spec l : forall t, NoDup (map fst l) -> (forall a, In a l -> (fst a < length t)%nat) ->
  exists t', puts l (Ok t) = Ok t' /\ length t' = length t /\ (forall x v, In (x, v) l -> nth x t' 0 = v) /\ (forall x, ~ In x (map fst l) -> nth x t' 0 = nth x t 0).
Proof.
  induction l as [|[x v] l IH]; intros t ND B.
  - exists t. split; [reflexivity|]. split; [reflexivity|]. split; [intros ? ? []|auto].
  - inversion ND as [|? ? N1 N2]; subst. destruct (put_nth t x v) as (t1 & P1 & P2 & P3 & P4); [apply (B (x, v)); left; auto|].
    destruct (IH t1 N2) as (t2 & Q1 & Q2 & Q3 & Q4). { intros a Ha. rewrite P2. apply B. right. auto. }
    exists t2. split. { unfold puts. cbn [fold_left rbind fst snd]. rewrite P1. exact Q1. }
    split; [lia|]. split.
    + intros y u [E|H]; [injection E as <- <-|eauto]. rewrite Q4, P3; auto.
    + intros y Hy. cbn [map fst In] in Hy. rewrite Q4, P4; auto.
Qed.

(** * The selected elements *)
Section Sel.
Context {N : Type} (neqb : N -> N -> bool) (NE : forall a b, reflect (a = b) (neqb a b)).
Definition radial (infos : list (dentry N)) : Prop := forall a, In a infos -> de_r a <> None.
Definition centre (a : dentry N) : bool := (neqb (de_in a) (de_out a) && match de_r a with Some r => Reqb r 0 | None => false end)%bool.
Lemma at_centre_eq n i o a : at_centre neqb n i o a = (centre a && neqb (de_in a) n && pair_eqb (de_pos a) (i, o))%bool.
Proof.
  unfold at_centre, centre, pair_eqb. cbn [fst snd]. destruct (NE (de_in a) n) as [->|E]; [|rewrite !andb_false_r; cbn; rewrite ?andb_false_r; reflexivity].
  assert (S : neqb (de_out a) n = neqb n (de_out a)) by (destruct (NE (de_out a) n), (NE n (de_out a)); congruence). rewrite S.
  unfold Reqb. destruct (de_r a) as [r|]; [destruct (Req_EM_T r 0)|]; destruct (neqb n (de_out a)), (fst (de_pos a) =? i)%nat, (snd (de_pos a) =? o)%nat; reflexivity.
Qed.
Lemma selected_ok infos : forall p sel, delta_selected neqb p infos = Ok sel ->
  radial infos /\ sel = map (fun q => (de_in (fst q), de_pos (fst q), snd q)) (filter (fun q => centre (fst q)) (combine infos (seq p (length infos)))).
Proof.
  induction infos as [|a l IH]; intros p sel H; cbn [delta_selected] in H.
  - injection H as <-. split; [intros ? []|reflexivity].
  - destruct (de_r a) as [r|] eqn:Er; [|discriminate]. destruct (delta_selected neqb (S p) l) as [s|] eqn:E; [|discriminate]. cbn [rbind] in H. injection H as <-.
    destruct (IH _ _ E) as [R1 R2]. split. { intros b [<-|Hb]; [congruence|apply R1; auto]. }
    cbn [length seq combine filter]. unfold centre at 1. cbn [fst snd]. rewrite Er. destruct (neqb (de_in a) (de_out a) && Reqb r 0)%bool; cbn [map fst snd]; rewrite R2; reflexivity.
Qed.
Lemma selected_ex infos : forall p, radial infos -> exists sel, delta_selected neqb p infos = Ok sel.
Proof.
  induction infos as [|a l IH]; intros p H; cbn [delta_selected]; [eauto|]. destruct (de_r a) as [r|] eqn:Er; [|exfalso; apply (H a); [left; auto|auto]].
  destruct (IH (S p)) as [s E]; [intros b Hb; apply H; right; auto|]. rewrite E. cbn [rbind]. eauto.
Qed.
Lemma filter_index {A} (c : A -> bool) (l : list A) : forall p,
  filter (fun x => match nth_error l (x - p) with Some a => c a | None => false end) (seq p (length l)) = map snd (filter (fun q => c (fst q)) (combine l (seq p (length l)))).
Proof.
  induction l as [|a l IH]; intros p; [reflexivity|]. cbn [length seq combine filter]. rewrite Nat.sub_diag. cbn [nth_error fst].
  assert (E : filter (fun x => match nth_error (a :: l) (x - p) with Some a0 => c a0 | None => false end) (seq (S p) (length l)) = map snd (filter (fun q => c (fst q)) (combine l (seq (S p) (length l))))).
  { rewrite <- IH. apply filter_ext_in. intros x Hx. apply in_seq in Hx. replace (x - p)%nat with (S (x - S p)) by lia. reflexivity. }
  rewrite E. destruct (c a); reflexivity.
Qed.
Lemma filter_map {A B} (f : A -> B) c l : filter c (map f l) = map f (filter (fun a => c (f a)) l).
Proof. induction l as [|a l IH]; [reflexivity|]. cbn. rewrite IH. destruct (c (f a)); reflexivity. Qed.
Lemma filter_filter {A} (c d : A -> bool) l : filter c (filter d l) = filter (fun a => (d a && c a)%bool) l.
Proof. induction l as [|a l IH]; [reflexivity|]. cbn. destruct (d a); cbn; rewrite IH; reflexivity. Qed.

Context (infos : list (dentry N)) (sel : list (@dsel N)) (SE : delta_selected neqb 0 infos = Ok sel).
Lemma slots_weights n i o : delta_slots (delta_of neqb sel n) (i, o) = weights neqb infos n i o.
Proof.
  destruct (selected_ok _ _ _ SE) as [_ ->]. unfold delta_slots, delta_of, weights.
  rewrite !filter_map, map_map. cbn [fst snd]. rewrite !filter_filter.
  rewrite (filter_ext (fun x => match nth_error infos x with Some a => at_centre neqb n i o a | None => false end)
             (fun x => match nth_error infos (x - 0) with Some a => at_centre neqb n i o a | None => false end)) by (intros x; rewrite Nat.sub_0_r; reflexivity).
  rewrite filter_index. f_equal. apply filter_ext. intros [a x]. cbn [fst]. rewrite at_centre_eq. rewrite andb_assoc. reflexivity.
Qed.
Lemma weights_entry n i o x : In x (weights neqb infos n i o) <-> exists a, nth_error infos x = Some a /\ at_centre neqb n i o a = true.
Proof.
  unfold weights. rewrite filter_In, in_seq. split.
  - intros [_ H]. destruct (nth_error infos x) as [a|]; [|discriminate]. eauto.
  - intros (a & E & H). rewrite E. split; [|exact H]. assert (nth_error infos x <> None) by congruence. apply nth_error_Some in H0. lia.
Qed.
Lemma at_centre_spec n i o a : at_centre neqb n i o a = true -> de_in a = n /\ de_out a = n /\ de_pos a = (i, o) /\ de_r a = Some 0.
Proof.
  unfold at_centre. rewrite !andb_true_iff, !Nat.eqb_eq. intros ((((H1 & H2) & H3) & H4) & H5). destruct (NE (de_in a) n), (NE (de_out a) n); try discriminate.
  destruct (de_pos a) as [i' o']. cbn in *. subst. destruct (de_r a) as [r|]; [destruct (Req_EM_T r 0); [subst; auto|discriminate]|discriminate].
Qed.
Lemma weights_once n i o n' i' o' x : In x (weights neqb infos n i o) -> In x (weights neqb infos n' i' o') -> n = n' /\ i = i' /\ o = o'.
Proof.
  rewrite !weights_entry. intros (a & E & H) (b & E' & H'). rewrite E in E'. injection E' as <-. apply at_centre_spec in H, H'. destruct H as (<- & _ & H & _), H' as (<- & _ & H' & _). rewrite H in H'. injection H' as <- <-. auto.
Qed.
Lemma weights_nodup n i o : NoDup (weights neqb infos n i o). Proof. apply NoDup_filter, seq_NoDup. Qed.
Lemma weights_lt n i o x : In x (weights neqb infos n i o) -> (x < length infos)%nat.
Proof. unfold weights. rewrite filter_In, in_seq. lia. Qed.
Lemma keys_in n i o : In (i, o) (delta_keys (delta_of neqb sel n)) <-> weights neqb infos n i o <> [].
Proof.
  rewrite <- slots_weights. unfold delta_keys, delta_slots. rewrite (first_seen_in pair_eqb pair_eqbP), in_map_iff. split.
  - intros (e & E & H) C. apply map_eq_nil in C. assert (HH : In e (filter (fun e0 => pair_eqb (snd (fst e0)) (i, o)) (delta_of neqb sel n))). { apply filter_In. split; [exact H|]. rewrite E. destruct (pair_eqbP (i, o) (i, o)); congruence. }
    rewrite C in HH. destruct HH.
  - intros H. destruct (filter (fun e => pair_eqb (snd (fst e)) (i, o)) (delta_of neqb sel n)) as [|e q] eqn:E; [exfalso; apply H; reflexivity|]. assert (HH : In e (e :: q)) by (left; auto). rewrite <- E in HH. apply filter_In in HH as [H1 H2].
    exists e. split; [|exact H1]. destruct (pair_eqbP (snd (fst e)) (i, o)); congruence.
Qed.
Lemma keys_nodup n : NoDup (delta_keys (delta_of neqb sel n)). Proof. apply (first_seen_nodup pair_eqb pair_eqbP). Qed.
Lemma input_in n i : In i (delta_ins (delta_keys (delta_of neqb sel n))) <-> input_of neqb infos n i.
Proof. rewrite ins_in. unfold input_of. split; intros [o H]; exists o; apply keys_in; auto. Qed.
Lemma output_in n o : In o (delta_outs (delta_keys (delta_of neqb sel n))) <-> output_of neqb infos n o.
Proof. rewrite outs_in. unfold output_of. split; intros [i H]; exists i; apply keys_in; auto. Qed.
Lemma irreps_in n : In n (delta_irreps neqb sel) <-> exists i o, weights neqb infos n i o <> [].
Proof.
  unfold delta_irreps. rewrite (first_seen_in neqb NE), in_map_iff. split.
  - intros (e & <- & H). destruct e as [[n [i o]] x]. cbn [fst]. exists i, o. apply keys_in. unfold delta_keys. apply (first_seen_in pair_eqb pair_eqbP), in_map_iff. exists (n, (i, o), x). split; [reflexivity|].
    apply filter_In. split; [exact H|]. cbn [fst]. destruct (NE n n); congruence.
  - intros (i & o & H). apply keys_in in H. unfold delta_keys in H. apply (first_seen_in pair_eqb pair_eqbP), in_map_iff in H as (e & E & H). apply filter_In in H as [H1 H2]. exists e. split; [|exact H1]. destruct (NE (fst (fst e)) n); congruence.
Qed.
End Sel.
