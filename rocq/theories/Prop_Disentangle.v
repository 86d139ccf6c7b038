(** C49: disentangling representations and fields. *)
From Coq Require Import Reals ZArith String List Bool Lia Lra Permutation FunctionalExtensionality.
From Verif Require Import Base LinAlg Spec Spec_Fields Model_Groups Model_Rep Model_FieldType Model_Tensor Model_Utils Model_Modules Model_Fieldwise Model_BatchNorm Model_Disentangle Spec_Fieldwise Spec_Fieldwise2 Spec_Disentangle
  Proofs_FieldType Proofs_Tensor Proofs_Fieldwise Proofs_Fieldwise8 Proofs_BatchNorm8
  Proofs_Disentangle Proofs_Disentangle2 Proofs_Disentangle3 Proofs_Disentangle4 Proofs_Disentangle5 Prop_Fieldwise3.
Import ListNotations.
Open Scope R_scope.

(** the block-diagonal matrix of a list of representations at g *)
Definition side_by_side {G} (reps : list (rep G)) (g : G) : mat := bdiag (map (fun q => (rp_size q, rp_mat q g)) reps).

(** For every representation that the constructor accepts, disentangle succeeds; the change of basis is a permutation matrix; the
    returned representations are accepted by the constructor, and their direct sum is the conjugated representation. *)
Theorem C49_disentangle : forall {G} (r : rep G), rep_accepted r ->
  exists P reps, disentangle r = Ok (P, reps) /\ is_perm (rp_size r) P /\
    (forall q, In q reps -> rep_accepted q /\ (forall i, In i (rp_irreps q) -> In i (rp_irreps r)) /\ rp_nonlin q = rp_nonlin r) /\
    nsum (map rp_size reps) = rp_size r /\
    forall g, meq (rp_size r) (rp_size r) (mmul (rp_size r) (mmul (rp_size r) P (rp_mat r g)) (mtr P)) (side_by_side reps g).
Proof.
  intros G r A. exists (dis_P r), (dis_reps r). split; [apply dis_total; auto|]. split; [apply dis_P_perm; auto|]. split; [|split; [apply dis_sizes; auto|intros g; apply dis_conj; auto]].
  intros q Hq. unfold dis_reps in Hq. apply in_map_iff in Hq as (b & <- & Hb). split; [apply block_accepted; auto|]. split; [|reflexivity].
  intros i Hi. cbn [block_rep rp_irreps] in Hi. unfold pick in Hi. apply in_flat_map in Hi as (k & _ & Hk). destruct (nth_error (rp_irreps r) k) as [a|] eqn:E; [|destruct Hk].
  destruct Hk as [<-|[]]. eapply nth_error_In; eauto.
Qed.
Print Assumptions C49_disentangle.

(** ... and conjugating back gives the representation. *)
Theorem C49_back : forall {G} (r : rep G) P reps, rep_accepted r -> disentangle r = Ok (P, reps) ->
  forall g, meq (rp_size r) (rp_size r) (rp_mat r g) (mmul (rp_size r) (mmul (rp_size r) (mtr P) (side_by_side reps g)) P).
Proof.
  intros G r P reps A E g. rewrite dis_total in E by auto. injection E as <- <-. set (n := rp_size r).
  destruct (Proofs_Fieldwise11.perm_orthogonal _ _ (dis_P_perm r A)) as [_ O]. fold n in O. pose proof (dis_commute r g A) as C. fold n in C.
  unfold side_by_side. rewrite mmul_assoc_eq, <- C, <- mmul_assoc_eq, O, mmul_id_l. reflexivity.
Qed.
Print Assumptions C49_back.

(** The returned representations cannot be divided further along zeros of the change of basis. *)
Theorem C49_finest : forall {G} (r : rep G) P reps, rep_accepted r -> (forall i, In i (rp_irreps r) -> (0 < ir_size i)%nat) ->
  disentangle r = Ok (P, reps) -> forall q, In q reps -> entangled q.
Proof.
  intros G r P reps A POS E q Hq. rewrite dis_total in E by auto. injection E as <- <-. unfold dis_reps in Hq. apply in_map_iff in Hq as (b & <- & Hb).
  apply in_seq in Hb. apply block_entangled; auto. lia.
Qed.
Print Assumptions C49_finest.

(** DisentangleModule: each field of the output has the channels of the field of the input, in another order, and the output
    transforms under out_type when the input transforms under in_type. *)
Section Module.
Context {GS G X : Type} (gs_eqb : GS -> GS -> bool) (rp_eqb : rep G -> rep G -> bool).
Theorem C49_module : forall (t : ftype GS (rep G)) uniq m junk junk' x x' g (pi : X -> X),
  dismod_make t uniq = Ok m -> size_pos t -> ft_reps t <> [] -> (forall r, In r (ft_reps t) -> rep_accepted r) ->
  (forall r, In r uniq <-> In r (ft_reps t)) -> NoDup (map rp_name uniq) ->
  typed gs_eqb rp_eqb t x -> typed gs_eqb rp_eqb t x' -> acts (ft_reps t) g pi (gt_data x) (gt_data x') ->
  exists y y', dismod_forward gs_eqb rp_eqb junk m x = Ok y /\ dismod_forward gs_eqb rp_eqb junk' m x' = Ok y' /\
    gt_type y = dm_out m /\ gt_type y' = dm_out m /\ ft_gs (dm_out m) = ft_gs t /\
    acts (ft_reps (dm_out m)) g pi (gt_data y) (gt_data y') /\
    forall f r b, nth_error (ft_reps t) f = Some r -> nth_error (fields (ft_reps t) (gt_data x)) f = Some b ->
      exists c s, nth_error (fields (ft_reps t) (gt_data y)) f = Some c /\ length c = rp_size r /\ bij (rp_size r) s /\
        forall i p, (i < rp_size r)%nat -> val c i p = val b (s i) p.
Proof.
  intros t uniq m junk junk' x x' g pi MK SP NE ACC U ND TX TX' AC. pose proof (conj U ND : uniq_ok t uniq) as UO.
  destruct (dismod_ok t uniq m MK UO ACC) as (_ & I2 & I3 & _).
  destruct (dismod_forward_ok gs_eqb rp_eqb t uniq m junk x MK UO ACC SP TX) as (y & Y1 & Y2 & Y3 & Y4).
  destruct (dismod_forward_ok gs_eqb rp_eqb t uniq m junk' x' MK UO ACC SP TX') as (y' & Y1' & Y2' & Y3' & Y4').
  exists y, y'. split; [auto|]. split; [auto|]. split; [auto|]. split; [auto|]. split; [auto|]. split.
  - rewrite I3. apply split_acts; auto; [intros r Hr; apply dis_sizes; auto| |].
    { intros r Hr E. pose proof (dis_sizes r (ACC r Hr)) as S0. rewrite E in S0. specialize (SP r Hr). cbn in S0. lia. }
    intros f r c c' Hr Hc Hc'. destruct (fields_at (ft_reps t) (gt_data x) f r Hr) as [b Hb]. destruct (fields_at (ft_reps t) (gt_data x') f r Hr) as [b' Hb'].
    rewrite (Y4 f r b Hr Hb) in Hc. injection Hc as <-. rewrite (Y4' f r b' Hr Hb') in Hc'. injection Hc' as <-.
    apply move_moved; [apply ACC; eapply nth_error_In; eauto|]. eapply acts_moved; [apply TX|exact AC|exact Hr|exact Hb|exact Hb'].
  - intros f r b Hr Hb. assert (A : rep_accepted r) by (apply ACC; eapply nth_error_In; eauto). exists (move_field (rp_size r) (dis_P r) b), (fun i => nth i (order r) 0%nat).
    split; [apply Y4; auto|]. split; [apply move_len|]. split; [apply order_bij|]. intros i p Hi. rewrite move_val by auto. unfold mvec.
    rewrite (rsum_single _ (nth i (order r) 0%nat)); [| |].
    + rewrite dis_P_at, Nat.eqb_refl by auto. lra.
    + apply (proj1 (order_bij r)). auto.
    + intros k Hk N. rewrite dis_P_at by auto. destruct (Nat.eqb_spec k (nth i (order r) 0%nat)); [congruence|lra].
Qed.
(** The constructor succeeds unless a name contains a dot (which buffer names may not contain). *)
Theorem C49_make : forall (t : ftype GS (rep G)) uniq, size_pos t -> ft_reps t <> [] -> (forall r, In r (ft_reps t) -> rep_accepted r) ->
  (forall r, In r uniq <-> In r (ft_reps t)) -> NoDup (map rp_name uniq) -> (forall r, In r (ft_reps t) -> has_dot (rp_name r) = false) ->
  exists m, dismod_make t uniq = Ok m.
Proof.
  intros t uniq SP NE ACC U ND DOT. unfold size_pos in SP. unfold dismod_make, dis_dict.
  rewrite (Proofs_BatchNorm2.rmap_pure _ (fun r => (rp_name r, (rp_size r, dis_P r, dis_reps r)))) by (intros r Hr; rewrite dis_total by (apply ACC, U; auto); reflexivity).
  cbn [rbind]. rewrite (Proofs_BatchNorm2.rmap_pure _ dis_reps).
  2:{ intros r Hr. rewrite (dis_get_ok _ _ (rp_size r, dis_P r, dis_reps r)); [reflexivity|rewrite map_map; exact ND|]. apply in_map_iff. exists r. split; [auto|]. apply U. auto. }
  cbn [rbind]. destruct (group_index_total (map (fun r => (rp_name r, rp_size r)) (ft_reps t))) as [d Hd].
  { intros l k Hk. apply in_map_iff in Hk as (r & E & Hr). injection E as _ <-. apply SP; auto. }
  { intros l Hl. rewrite map_map in Hl. apply in_map_iff in Hl as (r & <- & Hr). apply DOT. auto. }
  rewrite Hd. destruct (concat (map dis_reps (ft_reps t))) as [|q l] eqn:EC; [|cbn [rbind]; eauto]. exfalso.
  destruct (ft_reps t) as [|r l]; [congruence|]. cbn [map concat] in EC. apply app_eq_nil in EC as [EC _]. pose proof (dis_sizes r (ACC r (or_introl eq_refl))) as S0. rewrite EC in S0.
  specialize (SP r (or_introl eq_refl)). cbn in S0. lia.
Qed.
End Module.
Print Assumptions C49_module.
Print Assumptions C49_make.


(** ** A case: two regular representations of C2 with interleaved channels *)
Definition c2_irrep (k : Z) : irrep Z := match cyc_irrep 2 k with Ok ir => ir | Err _ => MkIrrep 0 0 0 0 (fun _ => mid) [] end.
Definition ex_rows (c : R) : list (list R) := [[c; c; 0; 0]; [0; 0; c; c]; [c; - c; 0; 0]; [0; 0; c; - c]].
Definition ex_cols (c : R) : list (list R) := [[c; 0; c; 0]; [c; 0; - c; 0]; [0; c; 0; c]; [0; c; 0; - c]].
Definition of_rows (l : list (list R)) : mat := fun i j => nth j (nth i l []) 0.
Definition two_regular : rep Z := MkRep "two_regular" [c2_irrep 0; c2_irrep 1; c2_irrep 0; c2_irrep 1] (of_rows (ex_rows 1)) (of_rows (ex_cols (/ 2))) ["pointwise"]%string.
Lemma two_size : rp_size two_regular = 4%nat.
Proof. reflexivity. Qed.
Lemma two_accepted : rep_accepted two_regular.
Proof.
  unfold rep_accepted. rewrite two_size. split; intros i j Hi Hj; unfold mmul, mid, of_rows, two_regular, rp_cob, rp_inv, ex_rows, ex_cols.
  all: destruct i as [|[|[|[|i]]]]; [| | | |lia]; destruct j as [|[|[|[|j]]]]; try lia; cbn; lra.
Qed.
Lemma nonzero_0 : nonzero 0 = false.
Proof. unfold nonzero. destruct (Req_EM_T 0 0); [auto|congruence]. Qed.
Lemma nonzero_1 : nonzero 1 = true.
Proof. unfold nonzero. destruct (Req_EM_T 1 0); [lra|auto]. Qed.
Lemma nonzero_m1 : nonzero (- (1)) = true.
Proof. unfold nonzero. destruct (Req_EM_T (- (1)) 0); [lra|auto]. Qed.
Definition ex_uses (i row : nat) : bool := ((row <? 4) && (Nat.div i 2 =? row mod 2) && (i <? 4))%nat%bool.
Lemma two_uses i row : uses two_regular i row = ex_uses i row.
Proof.
  destruct i as [|[|[|[|i]]]].
  5:{ unfold uses, ex_uses. cbn [two_regular rp_irreps nth_error]. replace (nth_error (@nil (irrep Z)) i) with (@None (irrep Z)) by (destruct i; auto).
      destruct (Nat.ltb_spec (S (S (S (S i)))) 4); [lia|]. rewrite andb_false_r. auto. }
  all: destruct row as [|[|[|[|row]]]].
  all: unfold uses, ex_uses; cbn [two_regular rp_irreps nth_error].
  all: try (match goal with |- context [irreps_pos ?l ?i] => let v := eval vm_compute in (irreps_pos l i) in change (irreps_pos l i) with v end;
            match goal with |- context [ir_size ?l] => change (ir_size l) with 1%nat end; cbn [seq existsb Nat.add]; unfold two_regular, rp_cob, of_rows, ex_rows; cbn [nth];
            rewrite ?nonzero_0, ?nonzero_1, ?nonzero_m1; reflexivity).
  all: match goal with |- context [irreps_pos ?l ?i] => let v := eval vm_compute in (irreps_pos l i) in change (irreps_pos l i) with v end;
            match goal with |- context [ir_size ?l] => change (ir_size l) with 1%nat end; cbn [seq existsb Nat.add]; unfold two_regular, rp_cob, of_rows, ex_rows; cbn [nth].
  all: destruct row; cbn [nth]; rewrite nonzero_0; match goal with |- context [(?k <? 4)%nat] => destruct (Nat.ltb_spec k 4) end; [lia|reflexivity|lia|reflexivity].
Qed.
Definition ex_graph (u v : nat) : bool :=
  if (u <? 4)%nat then (if (v <? 4)%nat then false else ex_uses u (v - 4)) else (if (v <? 4)%nat then ex_uses v (u - 4) else false).
Lemma two_graph : dis_graph two_regular = ex_graph.
Proof.
  apply functional_extensionality. intros u. apply functional_extensionality. intros v. unfold dis_graph, ex_graph. change (length (rp_irreps two_regular)) with 4%nat. cbv zeta.
  rewrite !two_uses. reflexivity.
Qed.
(** it splits into two representations of size 2, with channels 0 and 2, and 1 and 3 *)
Example C49_disentangle_ex : exists P reps, disentangle two_regular = Ok (P, reps) /\ map rp_size reps = [2; 2]%nat /\
  (forall i j, (i < 4)%nat -> P i j = if (j =? nth i [0; 2; 1; 3]%nat 0)%nat then 1 else 0) /\ map rp_name reps = ["two_regular_0"; "two_regular_1"]%string.
Proof.
  assert (DC : fst (dis_components two_regular) = 2%nat /\ map (snd (dis_components two_regular)) (seq 0 8) = [0; 0; 1; 1; 0; 1; 0; 1]%nat).
  { unfold dis_components. rewrite two_graph. change (length (rp_irreps two_regular) + rp_size two_regular)%nat with 8%nat. split; vm_compute; reflexivity. }
  destruct DC as [D1 D2].
  assert (L : forall k, (k < 4)%nat -> lr two_regular k = nth k [0; 1; 0; 1]%nat 0%nat).
  { assert (N : forall v, (v < 8)%nat -> snd (dis_components two_regular) v = nth v [0; 0; 1; 1; 0; 1; 0; 1]%nat 0%nat).
    { rewrite <- D2. generalize (snd (dis_components two_regular)). intros h v Hv. rewrite (nth_indep (map h (seq 0 8)) 0%nat (h 0%nat)) by (rewrite map_length, seq_length; auto). rewrite (map_nth h), seq_nth by auto. reflexivity. }
    intros k Hk. unfold lr. rewrite N by (change (length (rp_irreps two_regular)) with 4%nat; lia). change (length (rp_irreps two_regular)) with 4%nat.
    destruct k as [|[|[|[|k]]]]; [| | | |lia]; reflexivity. }
  assert (BR : block_rows two_regular 0 = [0; 2]%nat /\ block_rows two_regular 1 = [1; 3]%nat).
  { unfold block_rows. change (rp_size two_regular) with 4%nat. rewrite !(filter_ext_in _ (fun i => (nth i [0; 1; 0; 1]%nat 0%nat =? 0)%nat) (seq 0 4)) by (intros k Hk; apply in_seq in Hk; fold (lr two_regular k); rewrite L by lia; auto).
    rewrite !(filter_ext_in (fun i => (snd (dis_components two_regular) (length (rp_irreps two_regular) + i) =? 1)%nat) (fun i => (nth i [0; 1; 0; 1]%nat 0%nat =? 1)%nat) (seq 0 4)) by (intros k Hk; apply in_seq in Hk; fold (lr two_regular k); rewrite L by lia; auto).
    split; reflexivity. }
  destruct BR as [B0 B1]. exists (dis_P two_regular), (dis_reps two_regular). split; [apply dis_total, two_accepted|]. unfold dis_reps. rewrite D1. cbn [seq map]. rewrite !block_size by apply two_accepted. rewrite B0, B1.
  split; [reflexivity|]. split; [|reflexivity]. intros i j Hi. rewrite dis_P_at by (auto; apply two_accepted). unfold order. rewrite D1. cbn [seq map concat]. rewrite B0, B1. reflexivity.
Qed.
(** the hypotheses of the theorems hold for it *)
Example C49_ex : rep_accepted two_regular /\ (forall i, In i (rp_irreps two_regular) -> (0 < ir_size i)%nat).
Proof. split; [apply two_accepted|]. intros i [<-|[<-|[<-|[<-|[]]]]]; cbn; lia. Qed.
Example C49_module_ex : let t := MkFT tt [two_regular; c4 1; two_regular] in exists m, dismod_make t [c4 1; two_regular] = Ok m /\ size_pos t /\ ft_reps t <> [] /\
  (forall r, In r (ft_reps t) -> rep_accepted r) /\ (forall r, In r [c4 1; two_regular] <-> In r (ft_reps t)) /\ NoDup (map rp_name [c4 1; two_regular]) /\
  forall g (pi : nat -> nat) x, typed ueqb req t x -> exists x', typed ueqb req t x' /\ acts (ft_reps t) g pi (gt_data x) (gt_data x').
Proof.
  intros t. assert (ACC : forall r, In r (ft_reps t) -> rep_accepted r).
  { intros r [<-|[<-|[<-|[]]]]; [apply two_accepted| |apply two_accepted]. unfold rep_accepted. cbn. split; apply inverse_pair_mid. }
  assert (SP : size_pos t) by (intros r [<-|[<-|[<-|[]]]]; cbn; lia).
  assert (U : forall r, In r [c4 1; two_regular] <-> In r (ft_reps t)) by (intros r; cbn; tauto).
  assert (ND : NoDup (map rp_name [c4 1; two_regular])). { cbn. constructor; [intros [E|[]]; discriminate|]. constructor; [auto|constructor]. }
  destruct (C49_make t [c4 1; two_regular]) as [m Hm]; auto; [discriminate|intros r [<-|[<-|[<-|[]]]]; reflexivity|].
  exists m. split; [exact Hm|]. split; [exact SP|]. split; [discriminate|]. split; [exact ACC|]. split; [exact U|]. split; [exact ND|]. intros. apply typed_ex; [discriminate|auto].
Qed.
