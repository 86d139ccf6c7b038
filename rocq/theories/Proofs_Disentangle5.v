(** The blocks returned by [disentangle] do not split further. *)
From Coq Require Import Reals ZArith String List Bool Lia Lra Permutation.
From Verif Require Import Base Model_Groups Model_Rep Model_BatchNorm Spec_Fieldwise Spec_Disentangle Proofs_BatchNorm7 Model_Disentangle Proofs_Disentangle Proofs_Disentangle2 Proofs_Disentangle3.
Import ListNotations.
Open Scope R_scope.
Open Scope nat_scope.

Section Finest.
Context {G : Type}.
Variable r : rep G.
Notation irs := (rp_irreps r).
Notation ni := (length irs).
Notation n := (rp_size r).
Notation lab := (snd (dis_components r)).
Hypothesis ACC : rep_accepted r.

Lemma pick_at (idx : list nat) : (forall k, In k idx -> k < ni) -> forall q, q < length idx ->
  nth_error (pick irs idx) q = nth_error irs (nth q idx 0) /\
  forall ir e, nth_error irs (nth q idx 0) = Some ir -> e < ir_size ir ->
    nth (ioff (pick irs idx) q + e) (concat (map (irrep_cols r) idx)) 0 = ioff irs (nth q idx 0) + e.
Proof.
  induction idx as [|k idx IH]; intros IN q Hq; [cbn in Hq; lia|].
  assert (Hk : k < ni) by (apply IN; cbn; auto). destruct (nth_error irs k) as [kr|] eqn:Ek; [|apply nth_error_None in Ek; lia].
  assert (EP : pick irs (k :: idx) = kr :: pick irs idx) by (unfold pick; cbn [flat_map]; rewrite Ek; reflexivity). rewrite EP.
  assert (EC : irrep_cols r k = seq (ioff irs k) (ir_size kr)) by (unfold irrep_cols; rewrite Ek; reflexivity).
  destruct q as [|q]; cbn [nth nth_error map concat].
  - split; [auto|]. intros ir e E He. rewrite Ek in E. injection E as ->. change (ioff (ir :: pick irs idx) 0) with 0. cbn [Nat.add]. rewrite EC, app_nth1 by (rewrite seq_length; auto). apply seq_nth. auto.
  - destruct (IH (fun x Hx => IN x (or_intror Hx)) q) as [I1 I2]; [cbn in Hq; lia|]. split; [auto|]. intros ir e E He. rewrite <- (I2 ir e E He).
    assert (EO : ioff (kr :: pick irs idx) (S q) = ir_size kr + ioff (pick irs idx) q) by reflexivity. rewrite EO, EC, app_nth2 by (rewrite seq_length; lia). f_equal. rewrite seq_length. lia.
Qed.
Lemma irreps_lt b k : In k (block_irreps r b) <-> k < ni /\ lab k = b.
Proof. unfold block_irreps. rewrite filter_In, in_seq, Nat.eqb_eq. intuition lia. Qed.
(** position in a list *)
Lemma pos_of (l : list nat) x : In x l -> exists q, q < length l /\ nth q l 0 = x /\ pos_in x l = Some q.
Proof.
  intros H. destruct (pos_in x l) as [q|] eqn:E; [|apply pos_in_none' in E; contradiction]. destruct (pos_in_nth _ _ _ E). eauto.
Qed.
Hypothesis POS : forall ir, In ir irs -> 0 < ir_size ir.
Lemma block_nonempty b : b < fst (dis_components r) -> 0 < length (block_rows r b).
Proof.
  intros Hb. unfold dis_components in Hb. destruct (label_onto (dis_graph r) (ni + n) b Hb) as (v & Hv & L). fold (dis_components r) in L.
  destruct (Nat.lt_ge_cases v ni) as [Lt|Ge].
  - rewrite rows_len by auto. rewrite block_cols_eq. destruct (nth_error irs v) as [ir|] eqn:E; [|apply nth_error_None in E; lia].
    assert (I : In (ioff irs v) (filter (fun c => lc r c =? b) (seq 0 n))).
    { apply filter_In. assert (P0 := POS ir (nth_error_In _ _ E)). split; [apply in_seq; pose proof (ioff_le _ _ _ E); unfold rp_size; lia|]. apply Nat.eqb_eq. unfold lc.
      rewrite <- (Nat.add_0_r (ioff irs v)), (irr_of_at irs v ir 0 E P0). auto. }
    destruct (filter (fun c => lc r c =? b) (seq 0 n)); [destruct I|cbn; lia].
  - assert (I : In (v - ni) (block_rows r b)). { apply in_rows. split; [lia|]. unfold lr. replace (ni + (v - ni)) with v by lia. auto. }
    destruct (block_rows r b); [destruct I|cbn; lia].
Qed.
Lemma walk_keeps b (F : nat -> bool) :
  (forall u v, u < ni + n -> v < ni + n -> lab u = b -> lab v = b -> dis_graph r u v = true -> F u = F v) ->
  forall u v, walk (dis_graph r) (ni + n) u v -> u < ni + n -> v < ni + n -> lab u = b -> F u = F v.
Proof.
  intros H. assert (ED : forall u v, u < ni + n -> v < ni + n -> lab u = b -> edge (dis_graph r) u v -> lab v = b /\ F u = F v).
  { intros u v Hu Hv L [->|[E|E]]; [auto| |].
    - assert (lab v = b). { rewrite <- L. symmetry. apply label_same; auto. apply reach_edge. auto. } split; auto.
    - assert (lab v = b). { rewrite <- L. apply label_same; auto. apply reach_edge. auto. } split; auto. symmetry. apply H; auto. }
  induction 1 as [u v E|u w v Hw E W IH]; intros Hu Hv L; [apply ED; auto|]. destruct (ED u w Hu Hw L E) as [L' EF]. rewrite EF. apply IH; auto.
Qed.
Lemma block_entangled b : b < fst (dis_components r) -> entangled (block_rep r b).
Proof.
  intros Hb. unfold entangled. rewrite block_size by auto. split; [apply block_nonempty; auto|]. intros T I SEP x y Hx Hy.
  set (F := fun v => if v <? ni then match pos_in v (block_irreps r b) with Some q => I q | None => false end
                     else match pos_in (v - ni) (block_rows r b) with Some q => T q | None => false end).
  assert (FR : forall z, z < length (block_rows r b) -> F (ni + nth z (block_rows r b) 0) = T z).
  { intros z Hz. unfold F. destruct (Nat.ltb_spec (ni + nth z (block_rows r b) 0) ni); [lia|]. replace (ni + nth z (block_rows r b) 0 - ni) with (nth z (block_rows r b) 0) by lia.
    destruct (pos_of (block_rows r b) _ (nth_In _ 0 Hz)) as (q & Q1 & Q2 & ->). f_equal. apply (proj1 (NoDup_nth (block_rows r b) 0) (rows_nodup r b)); auto. }
  assert (STEP : forall k row, k < ni -> row < n -> lab k = b -> lab (ni + row) = b -> uses r k row = true -> F k = F (ni + row)).
  { intros k row Hk Hr Lk Lr U. destruct (pos_of (block_irreps r b) k) as (q & Q1 & Q2 & Q3); [apply irreps_lt; auto|]. destruct (pos_of (block_rows r b) row) as (z & Z1 & Z2 & Z3); [apply in_rows; auto|].
    unfold F at 1. destruct (Nat.ltb_spec k ni); [|lia]. rewrite Q3. rewrite <- Z2, FR by auto. destruct (bool_dec (T z) (I q)) as [|NE]; [auto|]. exfalso.
    unfold uses in U. destruct (nth_error irs k) as [ir|] eqn:Ek; [|discriminate]. apply existsb_exists in U as (e & E1 & E2). apply in_seq in E1. unfold nonzero in E2.
    destruct (Req_EM_T (rp_cob r row (irreps_pos irs k + e)) 0%R) as [|NZ]; [discriminate|]. apply NZ. rewrite irreps_pos_off.
    destruct (pick_at (block_irreps r b)) with (q := q) as [P1 P2]; auto; [intros k' Hk'; apply irreps_lt in Hk'; tauto|]. rewrite Q2 in P1, P2.
    assert (He : e < ir_size ir) by lia.
    assert (SZ : z < rp_size (block_rep r b)) by (rewrite block_size; auto).
    pose proof (SEP z q ir e SZ (eq_trans P1 Ek) He NE) as S0. cbn [block_rep rp_cob] in S0. unfold submatrix in S0. rewrite Z2 in S0. unfold block_cols in S0.
    change (col_of (block_rep r b) q) with (ioff (pick irs (block_irreps r b)) q) in S0. rewrite (P2 ir e Ek He) in S0. exact S0. }
  rewrite <- (FR x Hx), <- (FR y Hy).
  pose proof (nth_In _ 0 Hx) as Ix. pose proof (nth_In _ 0 Hy) as Iy. apply in_rows in Ix as [X1 X2], Iy as [Y1 Y2].
  apply (walk_keeps b F); auto; try lia.
  - intros u v Hu Hv Lu Lv E. unfold dis_graph in E. destruct (Nat.ltb_spec u ni), (Nat.ltb_spec v ni); try discriminate.
    + replace v with (ni + (v - ni)) in Lv |- * by lia. apply STEP; auto. lia.
    + replace u with (ni + (u - ni)) in Lu |- * by lia. symmetry. apply STEP; auto. lia.
  - apply reach_walk. apply label_same; [lia|lia|]. fold (dis_components r). unfold lr in X2, Y2. congruence.
Qed.
End Finest.
