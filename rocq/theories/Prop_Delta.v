(** C60: delta-orthogonal initialisation. *)
From Coq Require Import Reals ZArith String List Bool Lia Lra.
From Verif Require Import Base Model_Groups Model_Rep Model_FieldType Model_Utils Model_Modules Model_Fieldwise Model_Expansion Model_Conv Model_Init Model_Delta Spec_Delta
  Proofs_FieldType Proofs_Fieldwise2 Proofs_Delta Proofs_Delta2 Spec Spec_Expansion Spec_Conv Proofs_Conv8 Proofs_Restrict Prop_Conv Prop_Init.
Import ListNotations.
Open Scope R_scope.

(** It returns exactly when the tensor has one entry for each element, every element has a radius (or an order), and every
    pair of positions of the same irrep is joined by the same number of weights at the centre; otherwise it raises. *)
Theorem C60_succeeds : forall (N : Type) (same : N -> N -> bool) ortho normal len (infos : list (dentry N)),
  (forall a b, reflect (a = b) (same a b)) ->
  (exists T, delta_init same ortho normal len (length infos) infos = Ok T) <->
  len = length infos /\ (forall a, In a infos -> de_r a <> None) /\ balanced same infos.
Proof.
  intros N same ortho normal len infos NE. unfold delta_init. split.
  - intros [T H]. destruct (Nat.eqb_spec len (length infos)) as [->|]; [|discriminate]. cbn [assert_] in H. split; [reflexivity|].
    destruct (delta_selected same 0 infos) as [sel|] eqn:SE; [|discriminate]. cbn [rbind] in H. split; [apply (selected_ok same _ _ _ SE)|].
    intros n i o i' o' Hi Ho Hi' Ho'. apply (loop_balanced same NE ortho normal infos sel SE _ _ _ H); auto. apply (irreps_in same NE infos sel SE). destruct Hi as [q Hq]. eauto.
  - intros (-> & R & B). rewrite Nat.eqb_refl. cbn [assert_]. destruct (selected_ex same infos 0 R) as [sel SE]. rewrite SE. cbn [rbind].
    destruct (loop_run same NE ortho normal infos sel SE (delta_irreps same sel)) with (t := repeat 0 (length infos)) as (T & H & _).
    + apply (first_seen_nodup same NE).
    + intros n Hn. split; [exact Hn|]. intros i o i' o'. apply B.
    + apply repeat_length.
    + eauto.
Qed.
Print Assumptions C60_succeeds.

(** When it returns: only weights at the centre of the filter, between copies of one irrep, are not zero; for every irrep the
    filter at the centre has orthonormal rows (columns) when it does not enlarge (reduce) the number of copies.  For all
    orthogonal matrices and all normal numbers drawn, none of which is exactly zero. *)
Theorem C60_orthonormal : forall (N : Type) (same : N -> N -> bool) ortho normal len (infos : list (dentry N)) T,
  (forall a b, reflect (a = b) (same a b)) -> (forall n k, orthogonal k (ortho n k)) -> (forall n o p, normal n o p <> 0) ->
  delta_init same ortho normal len (length infos) infos = Ok T ->
  length T = length infos /\
  (forall x a, nth_error infos x = Some a -> ~ (de_in a = de_out a /\ de_r a = Some 0) -> nth x T 0 = 0) /\
  forall n, (exists i, input_of same infos n i) ->
    exists ins outs s, NoDup ins /\ NoDup outs /\ (0 < s)%nat /\
      (forall i, In i ins <-> input_of same infos n i) /\ (forall o, In o outs <-> output_of same infos n o) /\
      (forall i o, In i ins -> In o outs -> length (weights same infos n i o) = s) /\
      delta_orthonormal same infos T n ins outs s.
Proof.
  intros N same ortho normal len infos T NE OR NZ H.
  assert (B := proj1 (C60_succeeds N same ortho normal len infos NE) (ex_intro _ T H)). destruct B as (-> & R & B).
  unfold delta_init in H. rewrite Nat.eqb_refl in H. cbn [assert_] in H. destruct (delta_selected same 0 infos) as [sel|] eqn:SE; [|discriminate]. cbn [rbind] in H.
  destruct (loop_run same NE ortho normal infos sel SE (delta_irreps same sel)) with (t := repeat 0 (length infos)) as (T' & H' & L & V & Z).
  { apply (first_seen_nodup same NE). } { intros n Hn. split; [exact Hn|]. intros i o i' o'. apply B. } { apply repeat_length. }
  rewrite H in H'. injection H' as <-. split; [exact L|]. split.
  { intros x a Hx Ha. rewrite Z. { destruct (nth_in_or_default x (repeat 0 (length infos)) 0) as [I|E]; [apply repeat_spec in I; exact I|exact E]. }
    intros n _ C. apply assign_index in C as (i & o & C). apply (weights_entry same infos) in C as (b & E & C). rewrite Hx in E. injection E as <-. apply (at_centre_spec same NE) in C as (C1 & C2 & _ & C3). apply Ha. split; congruence. }
  intros n (i0 & Hi0). assert (Hn : In n (delta_irreps same sel)) by (apply (irreps_in same NE infos sel SE); destruct Hi0 as [o0 H0]; eauto).
  set (ins := d_ins same sel n). set (outs := d_outs same sel n). set (s := d_s same infos sel n).
  assert (I1 : forall i, In i ins <-> input_of same infos n i) by apply (input_in same NE infos sel SE).
  assert (O1 : forall o, In o outs <-> output_of same infos n o) by apply (output_in same NE infos sel SE).
  assert (K : exists k q, d_keys same sel n = k :: q). { destruct Hi0 as [o0 H0]. apply (keys_in same NE infos sel SE) in H0. fold (d_keys same sel n) in H0. destruct (d_keys same sel n) as [|k q]; [destruct H0|eauto]. }
  destruct K as (k & q & K). assert (Hk : weights same infos n (fst k) (snd k) <> []) by (apply (keys_in same NE infos sel SE); fold (d_keys same sel n); rewrite K; left; destruct k; reflexivity).
  assert (Hki : input_of same infos n (fst k)) by (exists (snd k); exact Hk). assert (Hko : output_of same infos n (snd k)) by (exists (fst k); exact Hk).
  assert (Es : s = length (weights same infos n (fst k) (snd k))) by (unfold s, d_s; rewrite K; reflexivity).
  assert (Hs : (0 < s)%nat). { rewrite Es. destruct (weights same infos n (fst k) (snd k)); [congruence|cbn; lia]. }
  assert (LW : forall i o, In i ins -> In o outs -> length (weights same infos n i o) = s). { intros i o Hi Ho. rewrite Es. apply B; auto; [apply I1|apply O1]; auto. }
  assert (NI : NoDup ins) by apply ins_nodup. assert (NO : NoDup outs) by apply outs_nodup.
  exists ins, outs, s. split; [exact NI|]. split; [exact NO|]. split; [exact Hs|]. split; [exact I1|]. split; [exact O1|]. split; [exact LW|].
  set (w := delta_w normal n s). set (W := delta_W ortho n (length ins) (length outs)).
  assert (TV : forall i o p, (i < length ins)%nat -> (o < length outs)%nat -> (p < s)%nat -> T_at same infos T n (nth i ins 0%nat) (nth o outs 0%nat) p = w o p * W o i).
  { intros i o p Hi Ho Hp. unfold T_at. assert (LL := LW (nth i ins 0%nat) (nth o outs 0%nat) (nth_In _ _ Hi) (nth_In _ _ Ho)).
    rewrite (nth_indep (weights same infos n (nth i ins 0%nat) (nth o outs 0%nat)) (length T) 0%nat) by lia.
    apply (V n _ _ Hn). apply (assign_in same ortho normal infos sel). exists i, o, p. fold ins outs. split; [exact Hi|]. split; [exact Ho|]. split; [lia|]. split; reflexivity. }
  assert (LI : (0 < length ins)%nat). { assert (HH : In (fst k) ins) by (apply I1; auto). destruct ins; [destruct HH|cbn; lia]. }
  assert (LO : (0 < length outs)%nat). { assert (HH : In (snd k) outs) by (apply O1; auto). destruct outs; [destruct HH|cbn; lia]. }
  assert (WU : forall o, rsum s (fun p => w o p * w o p) = 1). { intros o. rewrite <- (w_unit normal NZ n s o Hs). apply rsum_ext. intros. unfold w. ring. }
  split; intros LE; split.
  - intros o' Ho'. destruct (In_nth outs o' 0%nat Ho') as (o & Ho & <-). rewrite total_nth.
    rewrite (rsum_ext _ _ (fun i => W o i * W o i)). { unfold W. rewrite (W_rows ortho OR n (length ins) (length outs) o o) by auto. rewrite Nat.eqb_refl. reflexivity. }
    intros i Hi. rewrite (rsum_ext s _ (fun p => (W o i * W o i) * (w o p * w o p))) by (intros p Hp; rewrite TV by auto; ring). rewrite rsum_scal, WU. ring.
  - intros x x' p p' Hx Hx' Hd Hp Hp'. destruct (In_nth outs x 0%nat Hx) as (o & Ho & <-). destruct (In_nth outs x' 0%nat Hx') as (o' & Ho' & <-). rewrite total_nth.
    rewrite (rsum_ext _ _ (fun i => (w o p * w o' p') * (W o i * W o' i))) by (intros i Hi; rewrite !TV by auto; ring). rewrite rsum_scal.
    unfold W. rewrite (W_rows ortho OR n (length ins) (length outs) o o') by auto. destruct (Nat.eqb_spec o o') as [->|]; [congruence|ring].
  - intros i' Hi'. destruct (In_nth ins i' 0%nat Hi') as (i & Hi & <-). rewrite total_nth.
    rewrite (rsum_ext _ _ (fun o => W o i * W o i)). { unfold W. rewrite (W_cols ortho OR n (length ins) (length outs) i i) by auto. rewrite Nat.eqb_refl. reflexivity. }
    intros o Ho. rewrite (rsum_ext s _ (fun p => (W o i * W o i) * (w o p * w o p))) by (intros p Hp; rewrite TV by auto; ring). rewrite rsum_scal, WU. ring.
  - intros x x' Hx Hx' Hd. destruct (In_nth ins x 0%nat Hx) as (i & Hi & <-). destruct (In_nth ins x' 0%nat Hx') as (i' & Hi' & <-). rewrite total_nth.
    rewrite (rsum_ext _ _ (fun o => W o i * W o i')). { unfold W. rewrite (W_cols ortho OR n (length ins) (length outs) i i') by auto. destruct (Nat.eqb_spec i i') as [->|]; [congruence|reflexivity]. }
    intros o Ho. rewrite (rsum_ext s _ (fun p => (W o i * W o i') * (w o p * w o p))) by (intros p Hp; rewrite !TV by auto; ring). rewrite rsum_scal, WU. ring.
Qed.
Print Assumptions C60_orthonormal.

(** what deltaorthonormal_init reads in the information of an element of the expansion of R2Conv; irreps are identified by
    their flip and rotation frequency as in C47 *)
Definition conv_out_irrep {G} (outs : list (rep G)) (inf : @einfo kattr kid) : Z * Z :=
  match nth_error outs (ei_o inf) with
  | Some r => match nth_error (rp_irreps r) (ka_out (ei_attr inf)) with Some ir => (ir_flip ir, ir_freq ir) | None => (-1, -1)%Z end
  | None => (-1, -1)%Z end.
Definition conv_entry {G} (ins outs : list (rep G)) (inf : @einfo kattr kid) : dentry (Z * Z) :=
  MkDE (conv_in_irrep ins inf) (conv_out_irrep outs inf) (ei_inpos inf, ei_outpos inf) (Some (ka_radius (ei_attr inf))).
(** Every R2Conv: the call on its weights returns exactly when its expansion joins the positions of each irrep evenly; the
    weights are then zero off the centre of the filter, and orthonormal at the centre. *)
Theorem C60_R2Conv : forall G (sp : space G) isrep tin tout k padding stride dil mode groups bias sigma fco rings mo bf m ortho normal,
  conv_args sp isrep tin tout dil rings -> (0 < groups)%nat ->
  r2conv_make tin tout k padding stride dil mode groups bias sigma fco rings mo bf = Ok m ->
  (forall n k, orthogonal k (ortho n k)) -> (forall n o p, normal n o p <> 0) ->
  let dim := be_dimension kid_eqb (cv_exp m) in
  let infos := be_basis_info rp_name rp_size (fun r => length (rp_irreps r)) ka_id ka_in ka_out (cv_exp m) in
  let entries := map (conv_entry (one_group tin groups) (ft_reps tout)) infos in
  ((exists T, delta_init zz_eqb ortho normal dim dim entries = Ok T) <-> balanced zz_eqb entries) /\
  forall T, delta_init zz_eqb ortho normal dim dim entries = Ok T ->
    length T = dim /\
    (forall x inf, nth_error infos x = Some inf -> ka_radius (ei_attr inf) <> 0 -> nth x T 0 = 0) /\
    forall n, (exists i, input_of zz_eqb entries n i) ->
      exists ins outs s, NoDup ins /\ NoDup outs /\ (0 < s)%nat /\
        (forall i, In i ins <-> input_of zz_eqb entries n i) /\ (forall o, In o outs <-> output_of zz_eqb entries n o) /\
        (forall i o, In i ins -> In o outs -> length (weights zz_eqb entries n i o) = s) /\
        delta_orthonormal zz_eqb entries T n ins outs s.
Proof.
  intros G sp isrep tin tout k padding stride dil mode groups bias sigma fco rings mo bf m ortho normal CA Hg H OR NZ dim infos entries.
  destruct (C28_R2Conv _ _ _ _ _ _ _ _ _ _ _ _ _ _ _ _ _ _ CA Hg H) as (params & _ & D & first & _ & _ & L & _).
  assert (LE : length entries = dim) by (unfold entries; rewrite map_length; exact L).
  assert (X := C60_succeeds _ zz_eqb ortho normal dim entries zz_eqbP). rewrite LE in X. split.
  - rewrite X. split; [intros (_ & _ & B); exact B|]. intros B. split; [reflexivity|]. split; [|exact B]. intros a Ha. apply in_map_iff in Ha as (inf & <- & _). discriminate.
  - intros T HT. rewrite <- LE in HT at 2. destruct (C60_orthonormal _ zz_eqb ortho normal dim entries T zz_eqbP OR NZ HT) as (A & B & C). split; [congruence|]. split; [|exact C].
    intros x inf Hx Hr. apply (B x (conv_entry (one_group tin groups) (ft_reps tout) inf)); [unfold entries; rewrite nth_error_map, Hx; reflexivity|]. cbn. intros [_ E]. congruence.
Qed.
Print Assumptions C60_R2Conv.

(** Two input positions and one output position of the irrep 0, one input and one output of the irrep 1, an element between
    different irreps and one off the centre: the hypotheses hold, and the call returns. *)
Definition delta_ex : list (dentry nat) :=
  [MkDE 0 0 (0, 0) (Some 0%R); MkDE 0 0 (1, 0) (Some 0%R); MkDE 0 0 (0, 0) (Some 0%R); MkDE 0 0 (1, 0) (Some 0%R); MkDE 1 1 (2, 1) (Some 0%R); MkDE 0 1 (0, 1) (Some 0%R); MkDE 0 0 (0, 0) (Some 1%R)]%nat.
Lemma delta_ex_weights n i o : weights Nat.eqb delta_ex n i o <> [] -> (n = 0 /\ (i = 0 \/ i = 1) /\ o = 0)%nat \/ (n = 1 /\ i = 2 /\ o = 1)%nat.
Proof.
  intros H. destruct (weights Nat.eqb delta_ex n i o) as [|x l] eqn:E; [congruence|]. assert (I : In x (weights Nat.eqb delta_ex n i o)) by (rewrite E; left; auto).
  apply weights_entry in I as (a & Ha & C). apply (at_centre_spec Nat.eqb Nat.eqb_spec) in C as (C1 & C2 & C3 & C4). apply nth_error_In in Ha.
  cbn in Ha. destruct Ha as [<-|[<-|[<-|[<-|[<-|[<-|[<-|[]]]]]]]]; cbn in *; try injection C3 as <- <-; subst; try lia; injection C4 as C4; lra.
Qed.
Lemma delta_ex_count i : (i = 0 \/ i = 1)%nat -> length (weights Nat.eqb delta_ex 0%nat i 0%nat) = 2%nat.
Proof. intros [-> | ->]; unfold weights, at_centre; cbn; destruct (Req_EM_T 0 0); try lra; destruct (Req_EM_T 1 0); try lra; reflexivity. Qed.
Example C60_ex : exists T, delta_init Nat.eqb (fun _ _ => mid) (fun _ _ _ => 1) 7 (length delta_ex) delta_ex = Ok T /\
  (forall k, orthogonal k mid) /\ input_of Nat.eqb delta_ex 0%nat 0%nat /\ input_of Nat.eqb delta_ex 0%nat 1%nat.
Proof.
  assert (C : forall i, (i = 0 \/ i = 1)%nat -> input_of Nat.eqb delta_ex 0%nat i) by (intros i Hi; exists 0%nat; intros E; apply delta_ex_count in Hi; rewrite E in Hi; discriminate).
  destruct (proj2 (C60_succeeds nat Nat.eqb (fun _ _ => mid) (fun _ _ _ => 1) 7 delta_ex Nat.eqb_spec)) as [T HT].
  - split; [reflexivity|]. split. { intros a Ha. cbn in Ha. intuition (subst; discriminate). }
    intros n i o i' o' [x H1] [y H2] [x' H3] [y' H4]. apply delta_ex_weights in H1, H2, H3, H4.
    destruct H1 as [(-> & Hi & _)|(-> & -> & _)]; destruct H2 as [(E & _ & ->)|(E & _ & ->)]; try lia; destruct H3 as [(E' & Hi' & _)|(E' & -> & _)]; try lia; destruct H4 as [(E'' & _ & ->)|(E'' & _ & ->)]; try lia.
    rewrite !delta_ex_count by auto. reflexivity.
  - exists T. split; [exact HT|]. split; [|split; apply C; auto]. intros k. split; intros i j Hi Hj; unfold mmul; rewrite (rsum_single k i) by (auto; intros l _ Hl; unfold mtr, mid; destruct (Nat.eqb_spec i l), (Nat.eqb_spec l i); try congruence; ring); unfold mtr, mid; rewrite Nat.eqb_refl, ?(Nat.eqb_sym j i); ring.
Qed.
(** without the second connection the call raises *)
Example C60_unbalanced : ~ balanced Nat.eqb [MkDE 0 0 (0, 0) (Some 0%R); MkDE 0 0 (1, 1) (Some 0%R)]%nat.
Proof.
  intros B. assert (W : forall i, (i < 2)%nat -> weights Nat.eqb [MkDE 0 0 (0, 0) (Some 0%R); MkDE 0 0 (1, 1) (Some 0%R)]%nat 0%nat i i = [i]).
  { intros i Hi. destruct i as [|[|]]; [| |lia]; unfold weights, at_centre; cbn; destruct (Req_EM_T 0 0); try lra; reflexivity. }
  specialize (B 0 0 1 0 0)%nat. rewrite W in B by lia. assert (E : @length nat [] = length [0%nat]); [|discriminate]. apply B.
  - exists 0%nat. rewrite W by lia. discriminate.
  - exists 1%nat. rewrite W by lia. discriminate.
  - exists 0%nat. rewrite W by lia. discriminate.
  - exists 0%nat. rewrite W by lia. discriminate.
Qed.
