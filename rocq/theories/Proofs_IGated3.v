(** Equivariance of InducedGatedNonLinearity1. *)
From Coq Require Import Reals ZArith String List Bool Lia Lra FunctionalExtensionality.
From Verif Require Import Base LinAlg Spec Spec_Fields Model_Groups Model_Rep Model_Regular Model_FieldType Model_Tensor Model_Utils Model_Fieldwise Model_IGated Spec_Fieldwise Spec_Fieldwise2 Spec_IGated
  Proofs_Groups Proofs_Rep Proofs_Regular Proofs_Regular2 Proofs_Induced Prop_Regular
  Proofs_FieldType Proofs_Tensor Proofs_Utils Proofs_Fieldwise Proofs_Fieldwise2 Proofs_Fieldwise3 Proofs_Fieldwise4 Proofs_Fieldwise5 Proofs_Fieldwise6
  Proofs_Fieldwise7 Proofs_Fieldwise8 Proofs_Fieldwise9 Proofs_Fieldwise11 Proofs_IGated Proofs_IGated2.
Import ListNotations.
Open Scope R_scope.

Lemma moved_igate {X} k m s O A (pi : X -> X) (gl gl' b b' : list (X -> R)) : m <> 0%nat -> bij k s ->
  (forall q q' i j, (q < k)%nat -> (q' < k)%nat -> (i < m)%nat -> (j < m)%nat -> A (q * m + i)%nat (q' * m + j)%nat = if (q' =? s q)%nat then O q i j else 0) ->
  length gl = k -> length gl' = k -> (forall q p, (q < k)%nat -> val gl' q p = val gl (s q) (pi p)) ->
  moved (k * m) A pi b b' -> moved (k * m) A pi (induced_gate_act m gl b) (induced_gate_act m gl' b').
Proof.
  intros M0 B H LG LG' HG MV. pose proof MV as (L & L' & _).
  set (one := fun bg : list (X -> R) * (X -> R) => scaled (snd bg) (fst bg)).
  assert (LL : forall gl v : list (X -> R), length gl = k -> length v = (k * m)%nat -> induced_gate_act m gl v = concat (map one (combine (blocks m v) gl)) /\
     length (induced_gate_act m gl v) = (k * m)%nat /\ (forall e, In e (map one (combine (blocks m v) gl)) -> length e = m)).
  { intros g0 v Lg Lv. split; [unfold induced_gate_act; rewrite Lv, Nat.div_mul by auto; rewrite <- (blocks_cut m k) by auto; reflexivity|].
    split; [apply act_len; auto|]. intros e He. apply in_map_iff in He as ([w c] & <- & Hw). unfold one, scaled. cbn. rewrite map_length. apply in_combine_l in Hw. eapply blocks_len; eauto. }
  destruct (LL gl b LG L) as (E1 & E2 & E3). destruct (LL gl' b' LG' L') as (E1' & E2' & E3'). split; [auto|]. split; [auto|].
  intros p i Hi. set (q := (i / m)%nat). set (a := (i mod m)%nat). assert (Ei : i = (q * m + a)%nat) by (unfold q, a; pose proof (Nat.div_mod i m M0); lia).
  assert (Ha : (a < m)%nat) by (apply Nat.mod_upper_bound; auto). assert (Hq : (q < k)%nat) by (apply Nat.div_lt_upper_bound; lia).
  pose proof (proj1 B q Hq) as Hs.
  destruct (block_moved k m s O A pi b b' M0 B H MV q Hq) as (e & e' & Ee & Ee' & ME).
  set (c := nth (s q) gl (fun _ => 0)). set (c' := nth q gl' (fun _ => 0)).
  assert (Ec : nth_error gl (s q) = Some c) by (apply nth_error_nth'; lia). assert (Ec' : nth_error gl' q = Some c') by (apply nth_error_nth'; lia).
  assert (N1 : nth_error (map one (combine (blocks m b) gl)) (s q) = Some (scaled c e)) by (rewrite nth_error_map, (nth_combine _ _ _ _ _ Ee Ec); reflexivity).
  assert (N2 : nth_error (map one (combine (blocks m b') gl')) q = Some (scaled c' e')) by (rewrite nth_error_map, (nth_combine _ _ _ _ _ Ee' Ec'); reflexivity).
  rewrite Ei, E1', E1. rewrite (val_concat m _ q a _ p E3' N2 Ha).
  assert (MS : moved m (O q) pi (scaled c e) (scaled c' e')) by (apply moved_scaled; [auto|]; intros p0; apply (HG q p0 Hq)).
  destruct MS as (_ & _ & V). rewrite V by auto.
  rewrite rsum_blocks. symmetry. rewrite (rsum_ext k _ (fun q' => if Nat.eqb q' (s q) then rsum m (fun j => O q a j * val (scaled c e) j (pi p)) else 0)).
  - apply (rsum_at' k (s q) (fun _ => rsum m (fun j => O q a j * val (scaled c e) j (pi p)))). auto.
  - intros q' Hq'. destruct (Nat.eqb_spec q' (s q)) as [->|N].
    + apply rsum_ext. intros j Hj. rewrite H by auto. rewrite Nat.eqb_refl. f_equal. apply (val_concat m _ (s q) j _ (pi p) E3 N1 Hj).
    + apply rsum_0. intros j Hj. rewrite H by auto. destruct (Nat.eqb_spec q' (s q)); [congruence|ring].
Qed.
Lemma perm_moved {X} k s A (pi : X -> X) (b b' : list (X -> R)) : bij k s -> permutes_by k s A -> moved k A pi b b' ->
  forall q p, (q < k)%nat -> val b' q p = val b (s q) (pi p).
Proof.
  intros B P (L & L' & M) q p Hq. rewrite M by auto. rewrite (rsum_perm k s A (fun _ => 1) q B P Hq (fun c => val b c (pi p))). ring.
Qed.
Lemma val_gate {X} (b : list (X -> R)) c q p : (q < length b)%nat -> val (map (fun f => gate f c) b) q p = / (1 + exp (- (val b q p - c))).
Proof.
  intros H. unfold val. rewrite (nth_indep _ _ (gate (fun _ : X => 0) c)) by (rewrite map_length; auto). rewrite (map_nth (fun f => gate f c)). reflexivity.
Qed.

Section Modules.
Context {GS G X : Type} (fits : GS -> rep G -> bool) (gs_eqb : GS -> GS -> bool) (rp_eqb : rep G -> rep G -> bool).
Notation chan := (X -> R).
Notation ftype := (ftype GS (rep G)).
Notation gtensor := (gtensor GS (rep G) chan).
Implicit Types (t : ftype) (x y : gtensor) (pi : X -> X) (g : G).

Lemma gate_fields_nth (gs : list string) (reps : list (rep G)) (d : list chan) j : length gs = length reps ->
  forall v, nth_error (gate_fields gs (fields reps d)) j = Some v ->
  exists f r, nth_error gs f = Some GATES /\ nth_error reps f = Some r /\ nth_error (fields reps d) f = Some v /\ before isgate gs f = j.
Proof.
  intros L v H. unfold gate_fields in H. assert (LF : length gs = length (fields reps d)) by (unfold fields; rewrite cut_len, map_length; auto).
  destruct (filter_nth_inv isgate gs (fields reps d) j v LF H) as (f & l & H1 & H2 & H3 & H4). unfold isgate in H2. apply String.eqb_eq in H2. subst l.
  destruct (nth_error reps f) as [r|] eqn:E; [exists f, r; auto|]. apply nth_error_None in E. assert (f < length gs)%nat by (apply nth_error_Some; congruence). lia.
Qed.
Lemma before_inj (P : string -> bool) (gs : list string) f f' (g g' : string) : nth_error gs f = Some g -> nth_error gs f' = Some g' -> P g = true -> P g' = true -> before P gs f = before P gs f' -> f = f'.
Proof.
  unfold before. revert f f'. induction gs as [|a gs IH]; intros [|f] [|f'] H1 H2 P1 P2 E; try discriminate; auto; cbn [nth_error firstn filter] in *.
  - injection H1 as ->. rewrite P1 in E. discriminate.
  - injection H2 as ->. rewrite P2 in E. discriminate.
  - f_equal. apply IH; auto. destruct (P a); cbn [length] in E; lia.
Qed.
Lemma gate_fields_at (gs : list string) (reps : list (rep G)) (d : list chan) f v : length gs = length reps -> nth_error gs f = Some GATES ->
  nth_error (fields reps d) f = Some v -> nth_error (gate_fields gs (fields reps d)) (before isgate gs f) = Some v.
Proof.
  intros L H1 H2. unfold gate_fields. rewrite nth_error_map.
  assert (LF : length gs = length (fields reps d)) by (unfold fields; rewrite cut_len, map_length; auto).
  assert (X0 := nth_filter (fun p : string * list chan => isgate (fst p)) f (combine gs (fields reps d)) (GATES, v) (nth_combine _ _ _ _ _ H1 H2) eq_refl).
  rewrite firstn_combine' in X0. rewrite <- (map_length fst (filter _ _)), filter_fst in X0 by (rewrite !firstn_length; lia). unfold before. rewrite X0. reflexivity.
Qed.

Lemma igated1_equiv t gates drop bias m b g pi junk junk' x x' Q sg gs :
  gate_labels gates (length (ft_reps t)) = Ok gs ->
  bij Q sg ->
  (forall r, In (GATES, r) (combine gs (ft_reps t)) -> rp_size r = Q /\ permutes_by Q sg (rp_mat r g)) ->
  (forall r n s, In (GATED, r) (combine gs (ft_reps t)) -> field_id "induced_gated" r = Ok (n, s) -> permutes_blocks_by Q s sg (rp_mat r g)) ->
  igated1_make fits t gates drop bias = Ok m -> names_identify (ft_reps t) -> ft_reps (ig_out m) <> [] -> size_pos t -> length b = length (ig_bias m) ->
  typed gs_eqb rp_eqb t x -> typed gs_eqb rp_eqb t x' -> acts (ft_reps t) g pi (gt_data x) (gt_data x') ->
  exists y y', igated1_forward gs_eqb rp_eqb junk (set_ibias m b) x = Ok y /\ igated1_forward gs_eqb rp_eqb junk' (set_ibias m b) x' = Ok y' /\
    gt_type y = ig_out m /\ gt_type y' = ig_out m /\ acts (ft_reps (ig_out m)) g pi (gt_data y) (gt_data y').
Proof.
  intros GL BJ HGA HGD MK NI NE SP SS TX TX' A. pose proof (gate_labels_len _ _ _ GL) as LG.
  destruct (make_facts fits t gates drop bias m gs MK GL NI) as (HG & NG & _ & _ & _ & _ & _ & _ & _ & _ & _ & QG & GD).
  destruct (igated1_fieldwise fits gs_eqb rp_eqb t gates drop bias m gs b junk x MK GL NI SP SS TX) as (y & F & T & L & O & W1 & W2).
  destruct (igated1_fieldwise fits gs_eqb rp_eqb t gates drop bias m gs b junk' x' MK GL NI SP SS TX') as (y' & F' & T' & L' & _ & W1' & W2').
  exists y, y'. split; [auto|]. split; [auto|]. split; [auto|]. split; [auto|].
  (* the opened gates *)
  assert (GT : forall f r v v', nth_error gs f = Some GATES -> nth_error (ft_reps t) f = Some r ->
    nth_error (fields (ft_reps t) (gt_data x)) f = Some v -> nth_error (fields (ft_reps t) (gt_data x')) f = Some v' ->
    moved Q (rp_mat r g) pi v v' /\ permutes_by Q sg (rp_mat r g) /\ rp_size r = Q).
  { intros f r v v' Hg Hr Hv Hv'. destruct (HGA r) as [Sr Pr]; [apply (nth_error_In _ f), nth_combine; auto|].
    pose proof (acts_moved _ _ _ _ _ (proj2 TX) A f r v v' Hr Hv Hv') as M. rewrite Sr in M. auto. }
  assert (OG : forall f v v' c, nth_error gs f = Some GATES ->
    nth_error (fields (ft_reps t) (gt_data x)) f = Some v -> nth_error (fields (ft_reps t) (gt_data x')) f = Some v' ->
    length (map (fun e => gate e c) v) = Q /\ length (map (fun e => gate e c) v') = Q /\
    forall q p, (q < Q)%nat -> val (map (fun e => gate e c) v') q p = val (map (fun e => gate e c) v) (sg q) (pi p)).
  { intros f v v' c Hg Hv Hv'. pose proof (fields_len _ _ _ _ Hv) as Hf. destruct (nth_error (ft_reps t) f) as [r|] eqn:Hr; [|apply nth_error_None in Hr; lia].
    destruct (GT f r v v' Hg Hr Hv Hv') as (M & P & _). pose proof M as (M1 & M2 & _). rewrite !map_length. split; [auto|]. split; [auto|]. intros q p Hq.
    rewrite !val_gate by (try rewrite M1; try rewrite M2; try apply BJ; auto). rewrite (perm_moved _ _ _ _ _ _ BJ P M q p Hq). reflexivity. }
  apply moved_acts; auto. intros f' r' c c' Hr' Hc Hc'.
  assert (CASE : exists f l, nth_error gs f = Some l /\ nth_error (ft_reps t) f = Some r' /\ ((l <> GATES /\ f' = if drop then before isgated gs f else f) \/ (l = GATES /\ drop = false /\ f' = f))).
  { destruct drop.
    - rewrite O in Hr'. destruct (filter_nth_inv isgated gs (ft_reps t) f' r' LG Hr') as (f & l & H1 & H2 & H3 & H4). exists f, l. split; [auto|]. split; [auto|]. left.
      split; [|symmetry; exact H4]. intros ->. discriminate.
    - rewrite O in Hr'. assert (f' < length gs)%nat by (rewrite LG; apply nth_error_Some; congruence). destruct (nth_error gs f') as [l|] eqn:E; [|apply nth_error_None in E; lia].
      exists f', l. split; [auto|]. split; [auto|]. destruct (String.eqb_spec l GATES); auto. }
  destruct CASE as (f & l & Hl & Hr & CASE). destruct (fields_at (ft_reps t) (gt_data x) f r' Hr) as [v Hv]. destruct (fields_at (ft_reps t) (gt_data x') f r' Hr) as [v' Hv'].
  pose proof (acts_moved _ _ _ _ _ (proj2 TX) A f r' v v' Hr Hv Hv') as M. destruct CASE as [[NGt Ef]|(El & Ed & Ef)].
  - subst f'. destruct (W1 f l r' v Hl NGt Hr Hv) as (w & Ew & Sw). destruct (W1' f l r' v' Hl NGt Hr Hv') as (w' & Ew' & Sw'). rewrite Ew in Hc. rewrite Ew' in Hc'. injection Hc as ->. injection Hc' as ->.
    cbv zeta in Sw, Sw'. set (j := place _ _ _ _) in Sw, Sw'. destruct Sw as [Jl Sw]. destruct Sw' as [Jl' Sw']. eapply moved_same; [exact Sw|exact Sw'|].
    assert (Lg : l = GATED) by (destruct (HG l (nth_error_In _ _ Hl)); [congruence|auto]). subst l.
    assert (Hin : In (GATED, r') (combine gs (ft_reps t))) by (apply (nth_error_In _ f), nth_combine; auto).
    destruct (GD r' Hin) as (FI & S1 & S2 & S3 & S4).
    destruct (nth_error (gate_fields gs (fields (ft_reps t) (gt_data x))) j) as [u|] eqn:Eu; [|apply nth_error_None in Eu; lia].
    destruct (nth_error (gate_fields gs (fields (ft_reps t) (gt_data x'))) j) as [u'|] eqn:Eu'; [|apply nth_error_None in Eu'; lia].
    rewrite (nth_error_nth _ _ _ Eu), (nth_error_nth _ _ _ Eu').
    destruct (gate_fields_nth gs (ft_reps t) (gt_data x) j LG u Eu) as (fg & rg & G1 & G2 & G3 & G4). destruct (gate_fields_nth gs (ft_reps t) (gt_data x') j LG u' Eu') as (fg' & rg' & G1' & G2' & G3' & G4').
    assert (fg' = fg) by (eapply (before_inj isgate gs fg' fg GATES GATES); auto; congruence). subst fg'.
    destruct (OG fg u u' (nth j b 0) G1 G3 G3') as (O1 & O2 & O3).
    assert (EQ : rp_size r' = (Q * snd (idr r'))%nat).
    { destruct (GT fg rg u u' G1 G2 G3 G3') as (_ & _ & SQ). assert (QE := QG rg (nth_error_In _ _ (nth_combine _ _ _ _ _ G1 G2))). rewrite S4, SQ in QE. injection QE as QE.
      rewrite <- QE, <- S1. rewrite (Nat.div_mod (fst (idr r')) (snd (idr r'))) at 1 by auto. lia. }
    destruct (HGD r' (fst (idr r')) (snd (idr r')) Hin) as (OM & HB); [rewrite FI; destruct (idr r'); reflexivity|].
    rewrite EQ in M |- *. eapply moved_igate; eauto.
  - subst l drop f'. specialize (W2 f v eq_refl Hl Hv). specialize (W2' f v' eq_refl Hl Hv'). rewrite O in Hc, Hc'. rewrite W2 in Hc. rewrite W2' in Hc'. injection Hc as <-. injection Hc' as <-.
    destruct (GT f r' v v' Hl Hr Hv Hv') as (_ & P & SQ). rewrite SQ. destruct (OG f v v' (nth (before isgate gs f) b 0) Hl Hv Hv') as (O1 & O2 & O3).
    split; [auto|]. split; [auto|]. intros p a Ha. rewrite O3 by auto.
    rewrite (rsum_perm Q sg (rp_mat r' g) (fun _ => 1) a BJ P Ha (fun e => val (map (fun e0 => gate e0 (nth (before isgate gs f) b 0)) v) e (pi p))). ring.
Qed.
End Modules.

(** all representations induced from one subgroup permute their blocks in the same way *)
Lemma induced_one_perm {G H} (grp : fgroup G) (OK : fgroup_ok grp) (subs : list H) parent child opH invH eH
  (SOK : subgroup_ok grp subs parent child opH invH eH) g : In g (fg_elements grp) ->
  exists sg, bij (length (representatives grp subs parent)) sg /\
    forall s rho, permutes_blocks_by (length (representatives grp subs parent)) s sg (ind_mat grp subs parent child s rho g) /\
      ((forall h, In h subs -> rho h 0%nat 0%nat = 1) -> permutes_by (length (representatives grp subs parent)) sg (ind_mat grp subs parent child 1 rho g)).
Proof.
  intros Hg. set (reps := representatives grp subs parent) in *.
  pose (rr := rp grp subs parent).
  assert (RE : forall i, (i < length reps)%nat -> In (rr i) (fg_elements grp)) by (intros i Hi; apply (rp_el grp OK subs parent child opH invH eH SOK); auto).
  assert (RI : forall i, (i < length reps)%nat -> In (rr i) reps) by (intros i Hi; apply rp_in; auto).
  pose (t := fun i => match induced_entry grp subs parent child g (rr i) with Ok (j, _) => j | Err _ => 0%nat end).
  pose (hh := fun i => match induced_entry grp subs parent child g (rr i) with Ok (_, h) => h | Err _ => eH end).
  assert (C : forall i, (i < length reps)%nat -> (t i < length reps)%nat /\ In (hh i) subs /\
      child (fg_combine grp (fg_inverse grp (rr (t i))) (fg_combine grp g (rr i))) = Some (hh i) /\
      forall j', (j' < length reps)%nat -> j' <> t i -> child (fg_combine grp (fg_inverse grp (rr j')) (fg_combine grp g (rr i))) = None).
  { intros i Hi. destruct (induced_entry_ok grp OK subs parent child opH invH eH SOK g (rr i) Hg (RI i Hi)) as (j & h & E & A). unfold t, hh. rewrite E. exact A. }
  assert (OE : forall i, (i < length reps)%nat -> In (fg_combine grp g (rr i)) (fg_elements grp)) by (intros i Hi; apply (op_el grp OK); auto).
  assert (RL : forall i, (i < length reps)%nat -> rel grp subs parent (rr (t i)) (fg_combine grp g (rr i))).
  { intros i Hi. destruct (C i Hi) as (A & B & D & _). apply (child_rel grp OK subs parent child opH invH eH SOK); auto. exists (hh i). auto. }
  assert (BT : bij (length reps) t).
  { split; [intros i Hi; apply C; auto|]. intros i i' Hi Hi' E. apply (rel_rp grp OK subs parent child opH invH eH SOK); auto.
    assert (R1 := RL i Hi). assert (R2 := RL i' Hi'). rewrite <- E in R2.
    apply (rel_sym grp OK subs parent child opH invH eH SOK) in R1; [|apply RE, C; auto].
    destruct (rel_trans grp OK subs parent child opH invH eH SOK _ _ _ (OE i Hi) R1 R2) as (h & Hh & Eh). exists h. split; [auto|].
    pose proof (fo_laws grp OK) as L. assert (In (fg_inverse grp g) (fg_elements grp)) by (apply (gl_inv_el _ _ _ _ _ L); auto).
    assert (Eh' : fg_combine grp (fg_inverse grp g) (fg_combine grp g (rr i')) = fg_combine grp (fg_inverse grp g) (fg_combine grp (fg_combine grp g (rr i)) (parent h))) by congruence.
    assert (PH : In (parent h) (fg_elements grp)) by (apply (em_el _ _ _ _ _ _ _ _ _ (so_emb _ _ _ _ _ _ _ SOK)); auto).
    assert (Ei : In (rr i) (fg_elements grp)) by auto. assert (Ei' : In (rr i') (fg_elements grp)) by auto.
    assert (Ep : In (fg_combine grp (rr i) (parent h)) (fg_elements grp)) by (apply (op_el grp OK); auto).
    rewrite (gl_assoc _ _ _ _ _ L g (rr i) (parent h)) in Eh' by auto. rewrite <- !(gl_assoc _ _ _ _ _ L (fg_inverse grp g) g) in Eh' by auto.
    rewrite (gl_inv_l _ _ _ _ _ L) in Eh' by auto. rewrite !(gl_id_l _ _ _ _ _ L) in Eh' by auto. exact Eh'. }
  destruct (bij_inverse (length reps) t BT) as (sg & Bs & E). exists sg. split; [auto|]. intros s rho.
  assert (BL : forall s, permutes_blocks_by (length reps) s sg (ind_mat grp subs parent child s rho g) /\ 
    forall q q' i j, (q < length reps)%nat -> (q' < length reps)%nat -> (i < s)%nat -> (j < s)%nat -> ind_mat grp subs parent child s rho g (q * s + i)%nat (q' * s + j)%nat = if (q' =? sg q)%nat then rho (hh q') i j else 0).
  { clear s. intros s. assert (XX : forall q q' i j, (q < length reps)%nat -> (q' < length reps)%nat -> (i < s)%nat -> (j < s)%nat -> ind_mat grp subs parent child s rho g (q * s + i)%nat (q' * s + j)%nat = if (q' =? sg q)%nat then rho (hh q') i j else 0).
    { intros q q' i j Hq Hq' Hi Hj. rewrite <- E by auto.
      destruct (induced_matrix_ok grp OK subs parent child opH invH eH SOK s rho g Hg) as (M & EM & HM). unfold ind_mat. rewrite EM. rewrite HM; [|unfold nreps; fold reps; nia|unfold nreps; fold reps; nia].
      unfold ind. destruct (divmod_unique s q i Hi) as [-> ->]. destruct (divmod_unique s q' j Hj) as [-> ->]. unfold rho0.
      destruct (C q' Hq') as (A & B & D & F). unfold rr in D, F. destruct (Nat.eqb_spec q (t q')) as [->|N]; [rewrite D; reflexivity|]. rewrite F by auto. reflexivity. }
    split; [|exact XX]. exists (fun q => rho (hh (sg q))). intros q q' i j Hq Hq' Hi Hj. rewrite XX by auto. destruct (Nat.eqb_spec q' (sg q)) as [->|]; reflexivity. }
  split; [apply BL|]. intros T i j Hi Hj. destruct (BL 1%nat) as [_ XX]. specialize (XX i j 0%nat 0%nat Hi Hj ltac:(lia) ltac:(lia)). rewrite !Nat.mul_1_r, !Nat.add_0_r in XX.
  rewrite XX. destruct (Nat.eqb_spec j (sg i)); [|auto]. apply T, C. auto.
Qed.
