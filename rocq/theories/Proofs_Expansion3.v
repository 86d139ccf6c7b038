(** The layout of the weights of an expanded basis. *)
From Coq Require Import Reals ZArith String List Bool Lia.
From Verif Require Import Base Model_Groups Model_Rep Model_FieldType Proofs_FieldType Proofs_FieldType2 Model_Utils Proofs_Utils Model_Expansion Proofs_Expansion Proofs_Expansion2 Spec_Expansion.
Import ListNotations.
Open Scope nat_scope.

Fixpoint index_of (x : nat) (l : list nat) : nat :=
  match l with [] => 0 | y :: l' => if (y =? x) then 0 else S (index_of x l') end.
Lemma index_of_nth x l : In x l -> nth_error l (index_of x l) = Some x.
Proof.
  induction l as [|y l IH]; cbn; [tauto|]. intros H. destruct (Nat.eqb_spec y x); [now subst|]. cbn. apply IH. destruct H; [congruence|auto].
Qed.

Section Layout.
Context {Rp At Id : Type} (rname : Rp -> string) (rsize rirr : Rp -> nat) (rp_eqb : Rp -> Rp -> bool) (at_id : At -> Id) (at_in at_out : At -> nat)
        (id_eqb : Id -> Id -> bool).
Hypothesis id_spec : forall a b, reflect (a = b) (id_eqb a b).
Hypothesis rp_refl : forall r, rp_eqb r r = true.
Hypothesis rp_name_eq : forall a b, rp_eqb a b = true -> rname a = rname b.
Variables (ins outs : list Rp) (NS : nat) (gen : Rp -> Rp -> result (sblock At)) (b : @bexp Rp At Id).
Hypothesis Hb : be_make rname rsize rp_eqb at_id ins outs NS gen = Ok b.
Hypothesis Nin : forall x y, In x ins -> In y ins -> rname x = rname y -> x = y.
Hypothesis Nout : forall x y, In x outs -> In y outs -> rname x = rname y -> x = y.
Hypothesis Pin : forall r, In r ins -> 0 < rsize r.
Hypothesis Pout : forall r, In r outs -> 0 < rsize r.
Hypothesis Hgen : forall i o sb, In i ins -> In o outs -> gen i o = Ok sb ->
  sb_rows sb = rsize o /\ sb_cols sb = rsize i /\ 0 < length (sb_els sb) /\ NoDup (map (fun e => at_id (fst e)) (sb_els sb)).

Notation posI n := (Proofs_Expansion.pos rname rsize ins n).
Notation posO n := (Proofs_Expansion.pos rname rsize outs n).
Definition first_of (o i : nat) : nat :=
  match nth_error outs o, nth_error ins i with
  | Some ro, Some ri =>
    match kget key_eqb (be_ranges b) (rname ri, rname ro), kget key_eqb (be_blocks b) (rname ri, rname ro) with
    | Some rg, Some sb => widx (fst rg) (length (posI (rname ri))) (length (sb_els sb)) (index_of o (posO (rname ro))) (index_of i (posI (rname ri))) 0
    | _, _ => 0
    end
  | _, _ => 0
  end.
Lemma widx_0 a ic d q p t : widx a ic d q p 0 + t = widx a ic d q p t.
Proof. unfold widx. lia. Qed.

Lemma at_first o i t e ro ri : block_element ins outs gen o i t e -> nth_error outs o = Some ro -> nth_error ins i = Some ri ->
  let x := first_of o i + t in
  x < length (be_ids b) /\ nth_error (be_ids b) x = Some (idof at_id (rname ri, rname ro) (o, i) (fst e)) /\
  be_element_info rname rirr at_id at_in at_out b x = Ok (info rirr at_id at_in at_out b (rname ri, rname ro) (fst e) o i x) /\
  nth_error (be_basis_info rname rsize rirr at_id at_in at_out b) x = Some (info rirr at_id at_in at_out b (rname ri, rname ro) (fst e) o i x).
Proof.
  intros (ro' & ri' & sb & Ho & Hi & Hg & He) Ho' Hi'. rewrite Ho in Ho'. injection Ho' as ->. rewrite Hi in Hi'. injection Hi' as ->.
  destruct (blocks_facts rname rsize rsize rp_eqb at_id rp_refl rp_name_eq ins outs NS gen b Hb Nin Nout) as [B1 _].
  assert (K := B1 ri ro (nth_error_In _ _ Hi) (nth_error_In _ _ Ho)). rewrite Hg in K.
  destruct (start_of rname rsize rsize rp_eqb at_id rp_refl rp_name_eq ins outs NS gen b Hb Nin Nout _ _ K) as (pre & post & a & Hp & _ & Ha & Hr & _).
  assert (Qo : nth_error (posO (rname ro)) (index_of o (posO (rname ro))) = Some o) by (apply index_of_nth, pos_in; eauto).
  assert (Qi : nth_error (posI (rname ri)) (index_of i (posI (rname ri))) = Some i) by (apply index_of_nth, pos_in; eauto).
  assert (X := element_at rname rsize rirr rp_eqb at_id at_in at_out ins outs NS gen b Hb (rname ri, rname ro) sb pre post _ _ t o i e K Hp Qo Qi He).
  unfold first_of. rewrite Ho, Hi, Hr, K. cbn [fst snd] in *. rewrite widx_0. rewrite <- Ha in X. exact X.
Qed.

Lemma element_unique o i t e o' i' t' e' : block_element ins outs gen o i t e -> block_element ins outs gen o' i' t' e' -> first_of o i + t = first_of o' i' + t' ->
  o' = o /\ i' = i /\ t' = t.
Proof.
  intros H H' E. destruct (H) as (ro & ri & sb & Ho & Hi & Hg & He). destruct (H') as (ro' & ri' & sb' & Ho' & Hi' & Hg' & He').
  destruct (at_first _ _ _ _ _ _ H Ho Hi) as [_ [A _]]. destruct (at_first _ _ _ _ _ _ H' Ho' Hi') as [_ [A' _]].
  rewrite E, A' in A. unfold idof in A. cbn [fst snd] in A. injection A as _ Ei _ Eo Ea. subst i' o'.
  rewrite Ho in Ho'. injection Ho' as <-. rewrite Hi in Hi'. injection Hi' as <-. rewrite Hg in Hg'. injection Hg' as <-.
  split; [auto|]. split; [auto|].
  destruct (Hgen ri ro sb (nth_error_In _ _ Hi) (nth_error_In _ _ Ho) Hg) as (_ & _ & _ & ND).
  rewrite NoDup_nth_error in ND. apply ND; [rewrite map_length; apply nth_error_Some; congruence|].
  rewrite !nth_error_map, He, He'. cbn. congruence.
Qed.

Theorem layout : weight_layout rname rsize rirr at_id at_in at_out id_eqb ins outs gen b.
Proof.
  exists first_of.
  assert (D : be_dimension id_eqb b = length (be_ids b)) by (apply (dim_eq rname rsize rsize rp_eqb at_id id_eqb id_spec rp_refl rp_name_eq ins outs NS gen b Hb Nin Nout Hgen)).
  assert (ND : NoDup (be_ids b)) by (apply (ids_nodup rname rsize rsize rp_eqb at_id rp_refl rp_name_eq ins outs NS gen b Hb Nin Nout Hgen)).
  rewrite D.
  destruct (blocks_facts rname rsize rsize rp_eqb at_id rp_refl rp_name_eq ins outs NS gen b Hb Nin Nout) as [B1 [B2 _]].
  split.
  { intros o i t e H. destruct (H) as (ro & ri & sb & Ho & Hi & _). apply (at_first _ _ _ _ _ _ H Ho Hi). }
  split.
  { intros x Hx. destruct (weight_of rname rsize rp_eqb at_id ins outs NS gen b Hb x Hx) as (K & sb & pre & post & q & p & t & o & i & e & HK & Hp & Ho & Hi & He & Ex).
    destruct (element_at rname rsize rirr rp_eqb at_id at_in at_out ins outs NS gen b Hb K sb pre post q p t o i e HK Hp Ho Hi He) as [_ [A _]]. rewrite <- Ex in A.
    destruct (B2 K sb HK) as (ri0 & ro0 & Ii & Io & EK & Hg). subst K. cbn [fst snd] in *.
    apply nth_error_In in Ho. apply nth_error_In in Hi. apply pos_in in Ho as [ro [Ho No]]. apply pos_in in Hi as [ri [Hi Ni]].
    assert (ro = ro0) by (apply Nout; eauto using nth_error_In). assert (ri = ri0) by (apply Nin; eauto using nth_error_In). subst ro0 ri0.
    assert (BE : block_element ins outs gen o i t e) by (exists ro, ri, sb; auto).
    exists o, i, t, e. split; [exact BE|]. destruct (at_first _ _ _ _ _ _ BE Ho Hi) as [L [A' _]].
    assert (E : x = first_of o i + t). { rewrite NoDup_nth_error in ND. apply ND; [auto|]. congruence. }
    split; [exact E|]. intros o' i' t' e' BE' E'. apply (element_unique o i t e o' i' t' e' BE BE'). congruence. }
  split.
  { destruct (make_inv rname rsize rp_eqb at_id ins outs NS gen b Hb) as [I1 [I2 [_ [_ [_ [_ [_ [E3 _]]]]]]]].
    unfold be_basis_info. rewrite map_length. cbv zeta. rewrite <- (map_length snd (enumerate _)), enumerate_snd, E3, I1, I2. clear E3.
    induction (be_pairs b) as [|K l IH]; [reflexivity|]. cbn [map concat]. rewrite !app_length, IH. f_equal.
    destruct (kget key_eqb (be_blocks b) K) as [sb'|] eqn:Q.
    - rewrite (ids_length rname rsize at_id ins outs b K sb' Q). rewrite (length_concat_map _ (length (posI (fst K)) * length (sb_els sb'))); [unfold Proofs_Expansion.pos; lia|].
      intros o' _. rewrite (length_concat_map _ (length (sb_els sb'))) by (intros; apply map_length). reflexivity.
    - rewrite (basis_ids_eq rname rsize at_id). now rewrite Q. }
  split.
  { intros o i t e ro ri BE Ho Hi. destruct (at_first _ _ _ _ _ _ BE Ho Hi) as (L & A & E1 & E2). eexists. split; [exact E1|]. split; [exact E2|].
    split; [|].
    { unfold be_element_info_name. rewrite (last_index_nth id_eqb id_spec _ _ _ _ (first_of o i + t) ND A). exact E1. }
    destruct (make_inv rname rsize rp_eqb at_id ins outs NS gen b Hb) as [Eb1 [Eb2 _]].
    unfold info, irreps_before. cbn. rewrite Eb1, Eb2. auto 10. }
  intros Hd w Hw. rewrite <- D in Hd, Hw.
  destruct (forward_spec rname rsize rsize rp_eqb at_id id_eqb id_spec rp_refl rp_name_eq ins outs NS gen b Hb Nin Nout Pin Pout Hgen w Hw Hd) as [f [Hf F]].
  exists f. split; [exact Hf|]. intros o i ro ri r c s Ho Hi Hr Hc.
  assert (Qo : nth_error (posO (rname ro)) (index_of o (posO (rname ro))) = Some o) by (apply index_of_nth, pos_in; eauto).
  assert (Qi : nth_error (posI (rname ri)) (index_of i (posI (rname ri))) = Some i) by (apply index_of_nth, pos_in; eauto).
  assert (X := F ri ro _ _ o i r c s Ho Hi Qo Qi Hr Hc).
  assert (K := B1 ri ro (nth_error_In _ _ Hi) (nth_error_In _ _ Ho)).
  destruct (gen ri ro) as [sb|]; [|exact X]. destruct X as [a [Hk Hv]].
  transitivity (bval w sb a (length (posI (rname ri))) (index_of o (posO (rname ro))) (index_of i (posI (rname ri))) r c s); [exact Hv|].
  unfold bval. apply rsum_ext. intros t Ht. unfold first_of. rewrite Ho, Hi, Hk, K. cbn [fst]. rewrite widx_0. ring.
Qed.
End Layout.
