(** For C61: programs. *)
From Coq Require Import Reals ZArith String List Bool Lia Lra FunctionalExtensionality.
From Verif Require Import Base LinAlg Spec Spec_Fields Model_Groups Model_Rep Proofs_Rep Proofs_Restrict Model_FieldType Proofs_FieldType Proofs_FieldType2 Model_GSpace Spec_GSpace Proofs_GSpace Model_Tensor Model_Conv Spec_Conv
  Proofs_Conv Proofs_Conv4 Proofs_Tensor Model_Fieldwise Spec_Fieldwise Spec_Fieldwise2 Proofs_Fieldwise8 Proofs_Fieldwise9 Model_NormMax Spec_NormMax Spec_Pool Model_Net Spec_Net Proofs_Net Proofs_Net2 Proofs_Net3 Proofs_Net6 Spec_Move Proofs_Move5
  Model_Graph Spec_Graph Proofs_Graph Proofs_Export.
Import ListNotations.
Open Scope R_scope.

Lemma var_ok {A} (st : list A) i x : var st i = Ok x -> nth_error st i = Some x.
Proof. unfold var. destruct (nth_error st i); [|discriminate]. intros E. injection E as ->. reflexivity. Qed.
Lemma var_of {A} (st : list A) i x : nth_error st i = Some x -> var st i = Ok x.
Proof. unfold var. intros ->. reflexivity. Qed.
Lemma vars_ok {A} (st : list A) is xs : rmap (var st) is = Ok xs -> Forall2 (fun i x => nth_error st i = Some x) is xs.
Proof. intros H. apply rmap_all in H. induction H as [|i x is xs H _ IH]; constructor; [apply var_ok; exact H|exact IH]. Qed.

Section Eq.
Context {G B : Type} (sp : space G) (isrep : rep G -> Prop) (PS : planar_space G sp isrep) (e : gelt) (g : G) (kk : Z) (argmax : list R -> nat) (cob_id : rep G -> bool) (bt : batch B).
Context (fits : space G -> rep G -> bool).
Hypothesis He : fg_is_element (sp_group (sp_obj sp)) e = true.
Hypothesis GE : grid_exact (sp_obj sp) e.
Hypothesis Hg : sp_prj sp e = Some g.
Hypothesis Hk : gangle (sp_obj sp) e = IZR kk * (PI / 2).
Hypothesis Hev : keeps_axes (sp_obj sp) e -> Z.even kk = true.
Hypothesis AM : argmax_ok argmax.
Hypothesis NB : numbered bt.
Context (junk junk' : nat -> B * (nat * nat) -> R) (junkn junkn' : nat -> nat -> R).
Notation tensor := (arr (B -> vec) * ctype G)%type.
Notation corr := (@corr G B sp isrep e g kk).

Lemma var_corr st st' i x : Forall2 corr st st' -> var st i = Ok x -> exists x', var st' i = Ok x' /\ corr x x'.
Proof.
  intros F H. apply var_ok in H. revert i H. induction F as [|p p' st st' C F IH]; intros [|i] H; try discriminate.
  - injection H as <-. exists p'. split; [reflexivity|exact C].
  - destruct (IH i H) as (x' & V & C'). exists x'. split; [exact V|exact C'].
Qed.
Lemma vars_corr st st' is xs : Forall2 corr st st' -> rmap (var st) is = Ok xs -> exists xs', rmap (var st') is = Ok xs' /\ Forall2 corr xs xs'.
Proof.
  intros F. revert xs. induction is as [|i is IH]; intros xs H; cbn [rmap] in *.
  - injection H as <-. exists []. split; [reflexivity|constructor].
  - apply rbind_ok in H as (x & H1 & H). apply rbind_ok in H as (ys & H2 & H). injection H as <-. destruct (var_corr _ _ _ _ F H1) as (x' & V & C). destruct (IH _ H2) as (ys' & V' & C').
    rewrite V, V'. cbn [rbind]. exists (x' :: ys'). split; [reflexivity|constructor; auto].
Qed.
Lemma assign_corr st st' i z z' : Forall2 corr st st' -> corr z z' -> Forall2 corr (assign st i z) (assign st' i z').
Proof.
  intros F C. unfold assign. apply Forall2_app.
  - revert i. induction F as [|p p' st st' Cp F IH]; intros [|i]; cbn [firstn]; constructor; auto.
  - constructor; [exact C|]. generalize (S i). clear i. induction F as [|p p' st st' Cp F IH]; intros [|i]; cbn [skipn]; auto; constructor; auto.
Qed.
Lemma exec_corr o st st' s1 : good_op sp isrep e g cob_id fits o -> Forall2 corr st st' -> exec fits argmax junk junkn cob_id bt o st = Ok s1 -> suits_op argmax cob_id bt junk junkn o st ->
  exists s1', exec fits argmax junk' junkn' cob_id bt o st' = Ok s1' /\ Forall2 corr s1 s1'.
Proof.
  intros GO F H SU. destruct o as [l i|i j|i j|i s|is|i k|i j|i j|i s]; cbn [exec good_op suits_op] in *; repeat match goal with H : rbind _ _ = Ok _ |- _ => apply rbind_ok in H as (? & ? & H) end;
    injection H as <-; repeat match goal with H : var st ?i = Ok ?x |- _ => let x' := fresh "x'" in let V := fresh "V" in let C := fresh "C" in pose proof (var_corr _ _ _ _ F H) as (x' & V & C); apply var_ok in H end; repeat match goal with H : var st' _ = Ok _ |- _ => rewrite H; clear H end; cbn [rbind].
  - destruct x as [x t], x0 as [y t'], x' as [x' tt']. destruct C as (O & E & R). cbn [fst snd] in *. subst tt'. match goal with A : nth_error _ _ = Some _, A' : layer_forward _ _ _ _ _ _ _ = Ok _ |- _ => specialize (SU _ _ A A'); rename A' into H1 end. cbn [fst] in SU.
    destruct (good_step sp isrep PS e g kk argmax cob_id bt fits He GE Hg Hk Hev AM NB junk junk' junkn junkn' l GO t x x' y t' O R H1 SU) as (O' & y' & F' & R'). rewrite F'. cbn [rbind].
    eexists. split; [reflexivity|]. apply Forall2_app; auto. constructor; [|constructor]. split; [exact O'|]. split; [reflexivity|exact R'].
  - match goal with H : t_binary _ ?a ?b = Ok _, A : corr ?a _, A' : corr ?b _ |- _ => destruct (binary_corr sp isrep PS e g kk Rplus _ _ _ _ _ plus_linear A A' H) as (z' & E & CZ) end.
    rewrite E. cbn [rbind]. eexists. split; [reflexivity|]. apply Forall2_app; auto.
  - match goal with H : t_binary _ ?a ?b = Ok _, A : corr ?a _, A' : corr ?b _ |- _ => destruct (binary_corr sp isrep PS e g kk Rminus _ _ _ _ _ minus_linear A A' H) as (z' & E & CZ) end.
    rewrite E. cbn [rbind]. eexists. split; [reflexivity|]. apply Forall2_app; auto.
  - match goal with H : t_mul _ _ = Ok _ |- _ => destruct (mul_corr sp isrep e g kk _ _ _ _ C H) as (z' & E & CZ) end. rewrite E. cbn [rbind]. eexists. split; [reflexivity|]. apply Forall2_app; auto.
  - match goal with H : rmap _ _ = Ok _ |- _ => destruct (vars_corr _ _ _ _ F H) as (xs' & V & CV) end. rewrite V. cbn [rbind]. match goal with H : t_cat _ _ = Ok _ |- _ => destruct (cat_corr sp isrep e g kk fits _ _ _ CV H) as (z' & E & CZ) end. rewrite E. cbn [rbind].
    eexists. split; [reflexivity|]. apply Forall2_app; auto.
  - match goal with H : t_get _ _ _ = Ok _ |- _ => destruct (get_corr sp isrep e g kk fits _ _ _ _ C H) as (z' & E & CZ) end. rewrite E. cbn [rbind]. eexists. split; [reflexivity|]. apply Forall2_app; auto.
  - match goal with H : t_inplace _ ?a ?b = Ok _, A : corr ?a _, A' : corr ?b _ |- _ => destruct (inplace_corr sp isrep PS e g kk Rplus _ _ _ _ _ plus_linear A A' H) as (z' & E & CZ) end.
    rewrite E. cbn [rbind]. eexists. split; [reflexivity|]. apply assign_corr; auto.
  - match goal with H : t_inplace _ ?a ?b = Ok _, A : corr ?a _, A' : corr ?b _ |- _ => destruct (inplace_corr sp isrep PS e g kk Rminus _ _ _ _ _ minus_linear A A' H) as (z' & E & CZ) end.
    rewrite E. cbn [rbind]. eexists. split; [reflexivity|]. apply assign_corr; auto.
  - match goal with H : t_mul _ _ = Ok _ |- _ => destruct (mul_corr sp isrep e g kk _ _ _ _ C H) as (z' & E & CZ) end. rewrite E. cbn [rbind]. eexists. split; [reflexivity|]. apply assign_corr; auto.
Qed.
Lemma run_corr ops : Forall (good_op sp isrep e g cob_id fits) ops -> forall st st' s1, Forall2 corr st st' -> run_ops fits argmax junk junkn cob_id bt ops st = Ok s1 -> suits_ops argmax cob_id bt fits junk junkn ops st ->
  exists s1', run_ops fits argmax junk' junkn' cob_id bt ops st' = Ok s1' /\ Forall2 corr s1 s1'.
Proof.
  induction 1 as [|o ops GO _ IH]; intros st st' s1 F H SU; cbn [run_ops suits_ops] in *.
  - injection H as <-. exists st'. auto.
  - apply rbind_ok in H as (s0 & H0 & H). destruct SU as [S1 S2]. destruct (exec_corr o st st' s0 GO F H0 S1) as (s0' & E & F0). rewrite E. cbn [rbind]. apply (IH s0 s0'); auto.
Qed.
End Eq.

(** ** rolled images *)
Section Rolls.
Context {G B : Type} (sp : space G) (isrep : rep G -> Prop) (PS : planar_space G sp isrep) (g : G) (argmax : list R -> nat) (cob_id : rep G -> bool) (bt : batch B).
Context (fits : space G -> rep G -> bool).
Notation e := (fg_identity (sp_group (sp_obj sp))).
Hypothesis Hg : sp_prj sp e = Some g.
Hypothesis AM : argmax_ok argmax.
Hypothesis NB : numbered bt.
Context (junk junk' : nat -> B * (nat * nat) -> R) (junkn junkn' : nat -> nat -> R).
Notation tensor := (arr (B -> vec) * ctype G)%type.
Notation teqb := (ft_eqb space_eqb rep_eqb).

Lemma skipn_In' {A} n (l : list A) a : In a (skipn n l) -> In a l.
Proof. intros H. rewrite <- (firstn_skipn n l). apply in_or_app. auto. Qed.
Lemma firstn_In' {A} n (l : list A) a : In a (firstn n l) -> In a l.
Proof. intros H. rewrite <- (firstn_skipn n l). apply in_or_app. auto. Qed.
Inductive states : list (axis * axis) -> list tensor -> list tensor -> Prop :=
| st_nil : states [] [] []
| st_cons u us x st x' st' : rolls u x x' -> states us st st' -> states (u :: us) (x :: st) (x' :: st').
Lemma states_app us vs st s2 st' s2' : states us st st' -> states vs s2 s2' -> states (us ++ vs) (st ++ s2) (st' ++ s2').
Proof. induction 1; intros H'; cbn [app]; [exact H'|constructor; auto]. Qed.
Lemma states_one u x x' : rolls u x x' -> states [u] [x] [x'].
Proof. intros H. constructor; [exact H|constructor]. Qed.
Lemma states_var us st st' i u x : states us st st' -> nth_error us i = Some u -> nth_error st i = Some x -> exists x', var st' i = Ok x' /\ rolls u x x'.
Proof.
  intros S. revert i. induction S as [|v us y st y' st' R S IH]; intros [|i] H1 H2; try discriminate.
  - injection H1 as <-. injection H2 as <-. exists y'. split; [reflexivity|exact R].
  - destruct (IH i H1 H2) as (x' & V & R'). exists x'. split; [exact V|exact R'].
Qed.
Lemma states_vars us st st' is u xs : states us st st' -> Forall (fun i => nth_error us i = Some u) is -> rmap (var st) is = Ok xs -> exists xs', rmap (var st') is = Ok xs' /\ Forall2 (rolls u) xs xs'.
Proof.
  intros S F. revert xs. induction F as [|i is H F IH]; intros xs E; cbn [rmap] in *.
  - injection E as <-. exists []. split; [reflexivity|constructor].
  - apply rbind_ok in E as (x & H1 & E). apply rbind_ok in E as (ys & H2 & E). injection E as <-. apply var_ok in H1. destruct (states_var _ _ _ _ _ _ S H H1) as (x' & V & R). destruct (IH _ H2) as (ys' & V' & R').
    rewrite V, V'. cbn [rbind]. exists (x' :: ys'). split; [reflexivity|constructor; auto].
Qed.
Lemma states_assign us st st' i u z z' : states us st st' -> nth_error us i = Some u -> rolls u z z' -> states us (assign st i z) (assign st' i z').
Proof.
  intros S. revert i. induction S as [|v us y st y' st' R S IH]; intros [|i] H1 H2; try discriminate; unfold assign in *; cbn [firstn skipn app] in *.
  - injection H1 as <-. constructor; auto.
  - constructor; [exact R|]. apply IH; auto.
Qed.

Lemma expands_bdim (u u' v : axis) : expands u u' v -> bdim (fst u) (fst u') = Some (fst v).
Proof.
  unfold bdim. intros [[-> [->|E]]|[E ->]]; rewrite ?Nat.eqb_refl; [reflexivity| |].
  - rewrite E. destruct (Nat.eqb_spec (fst v) 1) as [->|]; reflexivity.
  - rewrite E. destruct (Nat.eqb_spec 1 (fst v)) as [<-|]; reflexivity.
Qed.
(** an axis of an operand, seen from the result *)
Lemma expands_idx (u v : axis) i : (u = v \/ fst u = 1%nat) -> (i < fst v)%nat -> (bidx (fst u) i < fst u)%nat /\ ((bidx (fst u) i + snd u) mod fst u = bidx (fst u) ((i + snd v) mod fst v))%nat.
Proof.
  intros D Hi. unfold bidx. destruct (Nat.eqb_spec (fst u) 1) as [E|N].
  - rewrite E. split; [lia|]. apply Nat.mod_1_r.
  - destruct D as [->|D]; [|congruence]. split; [exact Hi|reflexivity].
Qed.
Lemma binary_rolls f (p p' q q' : tensor) (u u' v : axis * axis) z : rolls u p p' -> rolls u' q q' -> expands (fst u) (fst u') (fst v) -> expands (snd u) (snd u') (snd v) -> t_binary f p q = Ok z ->
  exists z', t_binary f p' q' = Ok z' /\ rolls v z z'.
Proof.
  intros (T & D1 & D2 & R1 & R2 & R3) (T' & D1' & D2' & R1' & R2' & R3') X1 X2 F. unfold t_binary in *. rewrite T, T'. apply assert_ok in F as [TE F]. rewrite TE. cbn [assert_ negb]. unfold elementwise in *.
  rewrite D1, D2, D1', D2', (expands_bdim _ _ _ X1), (expands_bdim _ _ _ X2) in F. cbn [rbind] in F. injection F as <-.
  rewrite R1, R2, R1', R2', D1, D2, D1', D2', (expands_bdim _ _ _ X1), (expands_bdim _ _ _ X2). cbn [rbind]. eexists. split; [reflexivity|]. split; [reflexivity|]. split; [reflexivity|]. split; [reflexivity|].
  assert (SZ : ct_size (snd p) = ct_size (snd q)) by (apply teqb_size; exact TE).
  split; [reflexivity|]. split; [reflexivity|]. cbn [fst snd a_h a_w a_px]. intros i j b c Hi Hj Hc. unfold bpx.
  assert (XA : fst u = fst v \/ fst (fst u) = 1%nat) by (destruct X1 as [[X _]|[X _]]; auto). assert (XB : fst u' = fst v \/ fst (fst u') = 1%nat) by (destruct X1 as [[_ [X|X]]|[_ X]]; auto).
  assert (XC : snd u = snd v \/ fst (snd u) = 1%nat) by (destruct X2 as [[X _]|[X _]]; auto). assert (XD : snd u' = snd v \/ fst (snd u') = 1%nat) by (destruct X2 as [[_ [X|X]]|[_ X]]; auto).
  rewrite R1, R2, R1', R2', D1, D2, D1', D2'. destruct (expands_idx _ _ i XA Hi) as [I1 I2]. destruct (expands_idx _ _ i XB Hi) as [J1 J2]. destruct (expands_idx _ _ j XC Hj) as [K1 K2]. destruct (expands_idx _ _ j XD Hj) as [L1 L2].
  rewrite D1, D2 in R3. rewrite D1', D2' in R3'. rewrite R3, R3' by (auto; rewrite <- ?SZ; auto). rewrite I2, J2, K2, L2. reflexivity.
Qed.
Lemma inplace_rolls f (p p' q q' : tensor) (u u' : axis * axis) z : rolls u p p' -> rolls u' q q' -> expands (fst u) (fst u') (fst u) -> expands (snd u) (snd u') (snd u) -> t_inplace f p q = Ok z ->
  exists z', t_inplace f p' q' = Ok z' /\ rolls u z z'.
Proof.
  intros P Q X1 X2 F. unfold t_inplace in *. apply rbind_ok in F as (y & F & Y). destruct (((_ =? _) && _)%nat%bool) eqn:D in Y; [|discriminate]. injection Y as <-.
  destruct (binary_rolls f _ _ _ _ _ _ _ _ P Q X1 X2 F) as (y' & F' & R). rewrite F'. cbn [rbind]. exists y'. split; [|exact R].
  destruct R as (_ & A1 & A2 & A3 & A4 & _), P as (_ & B1 & B2 & B3 & B4 & _). rewrite A3, A4, B3, B4, A1, A2, B1, B2, !Nat.eqb_refl. reflexivity.
Qed.
Lemma mul_rolls (p p' : tensor) (u : axis * axis) s z : rolls u p p' -> t_mul p s = Ok z -> exists z', t_mul p' s = Ok z' /\ rolls u z z'.
Proof.
  intros (T & D1 & D2 & R1 & R2 & R3) F. assert (K : exists c, z = (MkArr (a_h (fst p)) (a_w (fst p)) (fun i j b k => a_px (fst p) i j b k * c), snd p) /\
    t_mul p' s = Ok (MkArr (a_h (fst p')) (a_w (fst p')) (fun i j b k => a_px (fst p') i j b k * c), snd p')).
  { unfold t_mul in *. destruct s as [c|[|c [|d l]]]; try discriminate; injection F as <-; exists c; auto. }
  destruct K as (c & -> & ->). eexists. split; [reflexivity|]. split; [exact T|]. split; [exact D1|]. split; [exact D2|]. split; [exact R1|]. split; [exact R2|]. cbn [fst snd a_px a_h a_w]. intros i j b k Hi Hj Hk.
  rewrite R3 by auto. reflexivity.
Qed.

(** channels that are rolled *)
Definition chan_rolls (u : axis * axis) (c c' : B * (nat * nat) -> R) : Prop :=
  forall b i j, (i < fst (fst u))%nat -> (j < fst (snd u))%nat -> c' (b, (i, j)) = c (b, (((i + snd (fst u)) mod fst (fst u))%nat, ((j + snd (snd u)) mod fst (snd u))%nat)).
Notation hx := (fun (x : arr (B -> vec)) (c : nat) (q : B * (nat * nat)) => if in_image x (snd q) then a_px x (fst (snd q)) (snd (snd q)) (fst q) c else 0).
Lemma channel_rolls u (p p' : tensor) c : rolls u p p' -> (c < ct_size (snd p))%nat -> chan_rolls u (hx (fst p) c) (hx (fst p') c).
Proof.
  intros (T & D1 & D2 & R1 & R2 & R3) Hc b i j Hi Hj. unfold in_image. cbn [fst snd]. rewrite R1, R2, D1, D2. rewrite (proj2 (Nat.ltb_lt _ _) Hi), (proj2 (Nat.ltb_lt _ _) Hj). cbn [andb].
  assert (M1 : ((i + snd (fst u)) mod fst (fst u) < fst (fst u))%nat) by (apply Nat.mod_upper_bound; lia). assert (M2 : ((j + snd (snd u)) mod fst (snd u) < fst (snd u))%nat) by (apply Nat.mod_upper_bound; lia).
  rewrite (proj2 (Nat.ltb_lt _ _) M1), (proj2 (Nat.ltb_lt _ _) M2). cbn [andb]. rewrite D1, D2 in R3. apply R3; auto.
Qed.
Lemma channels_rolls u (p p' : tensor) : rolls u p p' -> Forall2 (chan_rolls u) (channels (ct_size (snd p)) (fst p)) (channels (ct_size (snd p')) (fst p')).
Proof.
  intros R. pose proof R as (T & _). rewrite T. unfold channels. assert (forall c, In c (seq 0 (ct_size (snd p))) -> (c < ct_size (snd p))%nat) by (intros c Hc; apply in_seq in Hc; lia).
  revert H. generalize (seq 0 (ct_size (snd p))) as l. induction l as [|c l IH]; intros H; cbn [map]; constructor; [apply channel_rolls; auto; apply H; left; reflexivity|apply IH; intros; apply H; right; auto].
Qed.
Lemma image_rolls (u : axis * axis) d d' (t : ctype G) : Forall2 (chan_rolls u) d d' -> length d = ct_size t -> rolls u (image (fst (fst u)) (fst (snd u)) d, t) (image (fst (fst u)) (fst (snd u)) d', t).
Proof.
  intros F L. split; [reflexivity|]. split; [reflexivity|]. split; [reflexivity|]. split; [reflexivity|]. split; [reflexivity|]. cbn [fst snd image a_h a_w a_px]. intros i j b c Hi Hj Hc. rewrite <- L in Hc.
  clear L. revert c Hc. induction F as [|q q' d d' Q F IH]; intros [|c] Hc; cbn [length nth] in *; try lia; [apply Q; auto|apply IH; lia].
Qed.
Lemma cat_rolls (l l' : list tensor) (u : axis * axis) z : Forall2 (rolls u) l l' -> t_cat fits l = Ok z -> exists z', t_cat fits l' = Ok z' /\ rolls u z z'.
Proof.
  intros F H. destruct F as [|x0 x0' l l' R0 F]; [discriminate|]. set (L := x0 :: l) in *. set (L' := x0' :: l') in *. assert (FL : Forall2 (rolls u) L L') by (constructor; auto).
  unfold t_cat, L, L' in *. fold L L' in H |- *. apply assert_ok in H as [_ H]. pose proof R0 as (T0 & D1 & D2 & R1 & R2 & _).
  assert (D' : forallb (fun x : tensor => (a_h (fst x) =? a_h (fst x0'))%nat && (a_w (fst x) =? a_w (fst x0'))%nat) L' = true).
  { apply forallb_forall. intros x Hx. clear - FL Hx R1 R2 D1 D2. rewrite R1, R2, D1, D2. induction FL as [|p p' m m' (_ & E1 & E2 & E3 & E4 & _) F IH]; [destruct Hx|]. destruct Hx as [<-|Hx]; [|auto]. rewrite E3, E4, E1, E2, !Nat.eqb_refl. reflexivity. }
  unfold assert_ at 1. rewrite D'.
  assert (ER : map (fun x : tensor => ft_reps (snd x)) L' = map (fun x : tensor => ft_reps (snd x)) L).
  { clear - FL. induction FL as [|p p' m m' (E & _) F IH]; cbn [map]; [reflexivity|]. exact (f_equal2 cons (f_equal ft_reps E) IH). }
  apply rbind_ok in H as (y & H & Y). injection Y as <-. change (map (fun x : tensor => MkGT (channels (ct_size (snd x)) (fst x)) (snd x)) L) with (map chan_of L) in H.
  change (map (fun x : tensor => MkGT (channels (ct_size (snd x)) (fst x)) (snd x)) L') with (map chan_of L').
  unfold tensor_directsum in *. unfold L at 1 in H. unfold L' at 1. cbn [map] in H |- *. change (chan_of x0 :: map chan_of l) with (map chan_of L) in H. change (chan_of x0' :: map chan_of l') with (map chan_of L').
  apply assert_ok in H as [GE H]. apply rbind_ok in H as (t & MT & H). apply mk_gt_ok in H as [-> LD]. rewrite !map_map in *. cbn [chan_of gt_type gt_data] in *.
  assert (GE' : forallb (fun x : gtensor (space G) (rep G) (B * (nat * nat) -> R) => space_eqb (ft_gs (snd x0')) (ft_gs (gt_type x))) (map chan_of l') = true).
  { rewrite T0. clear - F GE. induction F as [|p p' m m' (E & _) F IH]; cbn [map forallb] in *; [reflexivity|]. apply andb_true_iff in GE as [G1 G2]. apply andb_true_iff. split; [|auto].
    cbn [chan_of gt_type] in *. rewrite E. exact G1. }
  rewrite GE'. cbn [assert_ negb]. rewrite ER, T0, MT. cbn [rbind].
  assert (FC : Forall2 (chan_rolls u) (concat (map (fun x : tensor => channels (ct_size (snd x)) (fst x)) L)) (concat (map (fun x : tensor => channels (ct_size (snd x)) (fst x)) L'))).
  { clear - FL. induction FL as [|p p' m m' R F IH]; cbn [map concat]; [constructor|]. apply Forall2_app; [apply channels_rolls; exact R|exact IH]. }
  assert (LC : length (concat (map (fun x : tensor => channels (ct_size (snd x)) (fst x)) L')) = length (concat (map (fun x : tensor => channels (ct_size (snd x)) (fst x)) L))).
  { clear - FC. induction FC; cbn; auto. }
  rewrite mk_gt_fwd by (refine (eq_trans LC _); exact LD). cbn [rbind gt_type gt_data]. eexists. split; [reflexivity|]. rewrite R1, R2, D1, D2. apply image_rolls; [exact FC|exact LD].
Qed.
Lemma get_rolls (p p' : tensor) (u : axis * axis) i z : rolls u p p' -> t_get fits p i = Ok z -> exists z', t_get fits p' i = Ok z' /\ rolls u z z'.
Proof.
  intros R F. pose proof R as (T & D1 & D2 & R1 & R2 & _). unfold t_get, on_channels in *. apply rbind_ok in F as (Y & F & Z). injection Z as <-. rewrite T. set (t := snd p) in *. set (n := ct_size t) in *.
  change (channels n (fst p)) with (map (hx (fst p)) (seq 0 n)) in F. change (channels n (fst p')) with (map (hx (fst p')) (seq 0 n)).
  rewrite getitem_map in F. rewrite getitem_map. apply rbind_ok in F as (y0 & F & Z). injection Z as <-. rewrite F. cbn [rbind gt_type gt_data]. eexists. split; [reflexivity|]. rewrite R1, R2, D1, D2.
  assert (LI : length (gt_data y0) = ct_size (gt_type y0) /\ forall c, In c (gt_data y0) -> In c (seq 0 n)).
  { assert (TA : forall (l : list nat) idx c, In c (take_at l idx) -> In c l).
    { intros l idx c Hc. unfold take_at in Hc. apply in_concat in Hc as (w & Hw & Hc). apply in_map_iff in Hw as (k & <- & _). destruct (nth_error l (Z.to_nat k)) eqn:E; [|destruct Hc]. destruct Hc as [<-|[]]. eapply nth_error_In; eauto. }
    clear - F TA. unfold getitem in F. cbn [gt_type gt_data] in F. destruct (int_to_slice (ft_len t) i) as [[a b] c]. destruct (match c with None => true | Some s => (s =? 1)%Z end);
      repeat match goal with H : rbind _ _ = Ok _ |- _ => apply rbind_ok in H as (? & _ & H) end; apply mk_gt_ok in F as [-> L]; cbn [gt_data gt_type]; (split; [exact L|]).
    - unfold sub_list. intros v Hv. eapply skipn_In'. eapply firstn_In'. exact Hv.
    - intros v. apply TA. }
  destruct LI as [LY IN]. apply image_rolls; [|rewrite map_length; exact LY].
  revert IN. generalize (gt_data y0) as l. induction l as [|c l IH]; intros IN; cbn [map]; constructor.
  - apply channel_rolls; [exact R|]. specialize (IN c (or_introl eq_refl)). apply in_seq in IN. fold t n. lia.
  - apply IH. intros v Hv. apply IN. right. exact Hv.
Qed.

Lemma exec_rolls o us vs st st' s1 : good_op sp isrep e g cob_id fits o -> wraps_op (bt_n bt) o us vs -> states us st st' -> exec fits argmax junk junkn cob_id bt o st = Ok s1 ->
  exists s1', exec fits argmax junk' junkn' cob_id bt o st' = Ok s1' /\ states vs s1 s1'.
Proof.
  intros GO W S H. destruct W; cbn [exec good_op] in *; repeat match goal with H : rbind _ _ = Ok _ |- _ => apply rbind_ok in H as (? & ? & H) end; injection H as <-;
    repeat match goal with H : var st ?i = Ok ?x |- _ => apply var_ok in H end;
    repeat match goal with A : nth_error us ?i = Some ?u, H : nth_error st ?i = Some ?x |- _ => let x' := fresh "x'" in let V := fresh "V" in let C := fresh "C" in pose proof (states_var _ _ _ _ _ _ S A H) as (x' & V & C); clear H; rewrite V end; cbn [rbind].
  - destruct x as [x t], x0 as [y t'], x' as [x' tt']. destruct C as (E & D1 & D2 & R). cbn [fst snd] in *. subst tt'.
    match goal with A : layer_forward _ _ _ _ _ _ _ = Ok _, W : wraps _ _ _ _ |- _ => destruct (wrap_step sp isrep PS g argmax cob_id bt fits Hg AM NB junk junk' junkn junkn' l u v GO W t x x' y t' A D1 D2 R) as (Q1 & Q2 & y' & Q3 & Q4) end.
    rewrite Q3. cbn [rbind]. eexists. split; [reflexivity|]. apply states_app; [exact S|]. apply states_one. split; [reflexivity|]. auto.
  - match goal with H : t_binary _ ?a ?b = Ok _, A : rolls u ?a _, A' : rolls u' ?b _, X : expands (fst _) _ _, Y : expands (snd _) _ _ |- _ => destruct (binary_rolls _ _ _ _ _ _ _ _ _ A A' X Y H) as (z' & E & CZ) end.
    rewrite E. cbn [rbind]. eexists. split; [reflexivity|]. apply states_app; [exact S|]. apply states_one. exact CZ.
  - match goal with H : t_binary _ ?a ?b = Ok _, A : rolls u ?a _, A' : rolls u' ?b _, X : expands (fst _) _ _, Y : expands (snd _) _ _ |- _ => destruct (binary_rolls _ _ _ _ _ _ _ _ _ A A' X Y H) as (z' & E & CZ) end.
    rewrite E. cbn [rbind]. eexists. split; [reflexivity|]. apply states_app; [exact S|]. apply states_one. exact CZ.
  - match goal with H : t_mul _ _ = Ok _ |- _ => destruct (mul_rolls _ _ _ _ _ C H) as (z' & E & CZ) end. rewrite E. cbn [rbind]. eexists. split; [reflexivity|]. apply states_app; [exact S|]. apply states_one. exact CZ.
  - match goal with H : rmap _ _ = Ok _, A : Forall _ is |- _ => destruct (states_vars _ _ _ _ _ _ S A H) as (xs' & V & CV) end. rewrite V. cbn [rbind]. match goal with H : t_cat _ _ = Ok _ |- _ => destruct (cat_rolls _ _ _ _ CV H) as (z' & E & CZ) end.
    rewrite E. cbn [rbind]. eexists. split; [reflexivity|]. apply states_app; [exact S|]. apply states_one. exact CZ.
  - match goal with H : t_get _ _ _ = Ok _ |- _ => destruct (get_rolls _ _ _ _ _ C H) as (z' & E & CZ) end. rewrite E. cbn [rbind]. eexists. split; [reflexivity|]. apply states_app; [exact S|]. apply states_one. exact CZ.
  - match goal with H : t_inplace _ ?a ?b = Ok _, A : rolls u ?a _, A' : rolls u' ?b _, X : expands (fst _) _ _, Y : expands (snd _) _ _ |- _ => destruct (inplace_rolls _ _ _ _ _ _ _ _ A A' X Y H) as (z' & E & CZ) end.
    rewrite E. cbn [rbind]. eexists. split; [reflexivity|]. eapply states_assign; eauto.
  - match goal with H : t_inplace _ ?a ?b = Ok _, A : rolls u ?a _, A' : rolls u' ?b _, X : expands (fst _) _ _, Y : expands (snd _) _ _ |- _ => destruct (inplace_rolls _ _ _ _ _ _ _ _ A A' X Y H) as (z' & E & CZ) end.
    rewrite E. cbn [rbind]. eexists. split; [reflexivity|]. eapply states_assign; eauto.
  - assert (U : exists u, nth_error us i = Some u).
    { match goal with H : nth_error st i = Some _ |- _ => revert H end. clear - S. revert i. induction S as [|u us y st y' st' R S IH]; intros [|i] H; try discriminate; [exists u; reflexivity|exact (IH i H)]. }
    destruct U as [u U]. match goal with H : nth_error st i = Some _ |- _ => destruct (states_var _ _ _ _ _ _ S U H) as (x' & V & C) end. rewrite V. cbn [rbind].
    match goal with H : t_mul _ _ = Ok _ |- _ => destruct (mul_rolls _ _ _ _ _ C H) as (z' & E & CZ) end. rewrite E. cbn [rbind]. eexists. split; [reflexivity|]. eapply states_assign; eauto.
Qed.
Lemma run_rolls ops us vs : Forall (good_op sp isrep e g cob_id fits) ops -> wraps_ops (bt_n bt) ops us vs -> forall st st' s1, states us st st' -> run_ops fits argmax junk junkn cob_id bt ops st = Ok s1 ->
  exists s1', run_ops fits argmax junk' junkn' cob_id bt ops st' = Ok s1' /\ states vs s1 s1'.
Proof.
  intros GO W. induction W as [us|o ops us vs ws W _ IH]; intros st st' s1 S H; cbn [run_ops] in *.
  - injection H as <-. exists st'. auto.
  - inversion GO; subst. apply rbind_ok in H as (s0 & H0 & H). destruct (exec_rolls o us vs st st' s0) as (s0' & E & S0); auto. rewrite E. cbn [rbind]. apply (IH ltac:(assumption) s0 s0'); auto.
Qed.
End Rolls.
