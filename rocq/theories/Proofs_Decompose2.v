(** For C67: the characters of C_N and D_N are orthogonal, and so count the irreps. *)
From Coq Require Import Reals ZArith String List Bool Lia Lra Permutation FinFun.
From Verif Require Import Base LinAlg Spec Model_Groups Model_Rep Model_Regular Proofs_Groups Proofs_Irreps Proofs_Rep Proofs_Trig Proofs_Regular Proofs_Regular2 Proofs_Kernels2 Proofs_Restrict Proofs_Decompose.
Import ListNotations.
Open Scope R_scope.

Lemma lsum_mult_r {A} (l : list A) f c : lsum (map f l) * c = lsum (map (fun a => f a * c) l).
Proof. induction l as [|a l IH]; cbn; [ring|]. unfold lsum in IH. rewrite <- IH. ring. Qed.
Lemma lsum_exch {A B} (l : list A) (m : list B) f : lsum (map (fun a => lsum (map (fun b => f a b) m)) l) = lsum (map (fun b => lsum (map (fun a => f a b) l)) m).
Proof.
  induction l as [|a l IH]; cbn [map].
  - induction m as [|b m IHm]; [reflexivity|]. cbn. unfold lsum in IHm. cbn in IHm. rewrite <- IHm. ring.
  - change (lsum (map (fun b => f a b) m) + lsum (map (fun a => lsum (map (fun b => f a b) m)) l) = lsum (map (fun b => f a b + lsum (map (fun a => f a b) l)) m)). rewrite IH, lsum_map_plus. reflexivity.
Qed.
Lemma chi_inv {G} (grp : fgroup G) ir e : fgroup_ok grp -> In ir (fg_irreps grp) -> In e (fg_elements grp) -> ir_character ir (fg_inverse grp e) = ir_character ir e.
Proof.
  intros OK Hir He. destruct (fo_irreps _ OK ir Hir) as [R1 O1]. unfold ir_character. rewrite (trace_ext _ _ (mtr (ir_mat ir e))); [reflexivity|].
  apply (rep_inv_tr _ _ _ _ _ _ _ (fo_laws _ OK) R1 O1); [intros a b ->; reflexivity|exact He].
Qed.

Section Count.
Context {G K : Type} (grp : fgroup G) (dec : forall x y : K, {x = y} + {x <> y}) (irr : K -> irrep G) (ks : list K).
Hypotheses (OK : fgroup_ok grp) (IRS : fg_irreps grp = map irr ks) (ND : NoDup ks) (POS : (0 < order grp)%nat) (SOS : forall k, In k ks -> (0 < ir_sos (irr k))%nat).
Hypothesis ORTH : forall k l, In k ks -> In l ks ->
  lsum (map (fun e => ir_character (irr k) e * ir_character (irr l) e) (fg_elements grp)) = if dec k l then INR (order grp) * INR (ir_sos (irr l)) else 0.
Lemma count_mult (kl : list K) chi l : (forall k, In k kl -> In k ks) -> (forall e, In e (fg_elements grp) -> chi e = lsum (map (fun k => ir_character (irr k) e) kl)) -> In l ks ->
  multiplicity grp chi (irr l) = Ok (count_occ dec kl l).
Proof.
  intros IN CHI Hl. unfold multiplicity.
  assert (E : lsum (map (fun e => chi e * ir_character (irr l) (fg_inverse grp e)) (fg_elements grp)) = INR (count_occ dec kl l) * (INR (order grp) * INR (ir_sos (irr l)))).
  { rewrite (lsum_ext _ _ (fun e => lsum (map (fun k => ir_character (irr k) e * ir_character (irr l) e) kl))).
    - rewrite lsum_exch. rewrite <- (count_sum dec). apply lsum_ext. intros k Hk. apply ORTH; [apply IN, Hk|exact Hl].
    - intros e He. rewrite (CHI e He), (chi_inv grp (irr l) e OK); [apply lsum_mult_r| |exact He]. rewrite IRS. apply in_map, Hl. }
  rewrite E. assert (P1 : 0 < INR (order grp)) by (apply lt_0_INR, POS). assert (P2 : 0 < INR (ir_sos (irr l))) by (apply lt_0_INR, SOS, Hl).
  replace (INR (count_occ dec kl l) * (INR (order grp) * INR (ir_sos (irr l))) / (INR (order grp) * INR (ir_sos (irr l)))) with (IZR (Z.of_nat (count_occ dec kl l))) by (rewrite <- INR_IZR_INZ; field; split; lra).
  cbv zeta. rewrite py_round_IZR. destruct (Req_EM_T _ _) as [_|NE]; [|contradiction NE; reflexivity]. cbn [assert_]. rewrite Nat2Z.id. reflexivity.
Qed.
Lemma count_all (kl : list K) chi : (forall k, In k kl -> In k ks) -> (forall e, In e (fg_elements grp) -> chi e = lsum (map (fun k => ir_character (irr k) e) kl)) ->
  exists ms, multiplicities grp chi = Ok ms /\ Permutation (expand ms) (map irr kl).
Proof.
  intros IN CHI. exists (map (fun k => (irr k, count_occ dec kl k)) ks). split.
  - unfold multiplicities. rewrite IRS.
    assert (SUB : forall k, In k ks -> multiplicity grp chi (irr k) = Ok (count_occ dec kl k)) by (intros k Hk; apply count_mult; assumption).
    assert (ALL : forall l, (forall k, In k l -> multiplicity grp chi (irr k) = Ok (count_occ dec kl k)) ->
      rmap (fun ir => rbind (multiplicity grp chi ir) (fun m => Ok (ir, m))) (map irr l) = Ok (map (fun k => (irr k, count_occ dec kl k)) l)).
    { intros l. induction l as [|k l IHl]; intros S1; [reflexivity|]. cbn [map rmap]. rewrite (S1 k) by (left; reflexivity). cbn [rbind]. rewrite IHl by (intros a Ha; apply S1; right; exact Ha). reflexivity. }
    apply ALL, SUB.
  - transitivity (map irr (flat_map (fun k => repeat k (count_occ dec kl k)) ks)); [|apply Permutation_map, grouped_perm; assumption].
    unfold expand. rewrite map_map. cbn [fst snd]. generalize (count_occ dec kl). intros c. apply Permutation_refl'.
    assert (RP : forall k n, repeat (irr k) n = map irr (repeat k n)) by (intros k n; induction n as [|n IHn]; [reflexivity|cbn; rewrite IHn; reflexivity]).
    assert (ALL : forall l, concat (map (fun x => repeat (irr x) (c x)) l) = map irr (flat_map (fun k => repeat k (c k)) l)).
    { intros l. induction l as [|k l IHl]; [reflexivity|]. change (repeat (irr k) (c k) ++ concat (map (fun x => repeat (irr x) (c x)) l) = map irr (repeat k (c k) ++ flat_map (fun k => repeat k (c k)) l))%list. rewrite map_app, <- IHl, RP. reflexivity. }
    apply ALL.
Qed.
End Count.

(** * sums of products of cosines *)
Lemma cos_prod_sum N k l : (0 < N)%Z -> (0 <= k <= N / 2)%Z -> (0 <= l <= N / 2)%Z ->
  rsum (Z.to_nat N) (fun r => cos (IZR k * (INR r * (2 * PI / IZR N))) * cos (IZR l * (INR r * (2 * PI / IZR N)))) =
  if Z.eqb k l then (if ((k =? 0) || (2 * k =? N))%Z then IZR N else IZR N / 2) else 0.
Proof.
  intros HN Hk Hl. assert (D := Z.div_mod N 2 ltac:(lia)). assert (D' := Z.mod_pos_bound N 2 ltac:(lia)).
  assert (EN : INR (Z.to_nat N) = IZR N) by (rewrite INR_IZR_INZ, Z2Nat.id by lia; reflexivity).
  assert (NZ : IZR N <> 0) by (apply not_0_IZR; lia).
  assert (A : rsum (Z.to_nat N) (fun r => cos (INR r * (IZR (k - l) * (2 * PI / INR (Z.to_nat N))))) = if (k - l =? 0)%Z then IZR N else 0) by (rewrite <- EN; apply cos_sum; lia).
  assert (B : rsum (Z.to_nat N) (fun r => cos (INR r * (IZR (k + l) * (2 * PI / INR (Z.to_nat N))))) = if ((k + l =? 0) || (k + l =? N))%Z then IZR N else 0).
  { destruct (Z.eqb_spec (k + l) N) as [E|NE].
    - rewrite orb_true_r. rewrite (rsum_ext _ _ (fun _ => 1)); [rewrite rsum_const, EN; ring|]. intros r _. rewrite E, EN. replace (INR r * (IZR N * (2 * PI / IZR N))) with (0 + 2 * INR r * PI) by (field; exact NZ). rewrite cos_period. apply cos_0.
    - rewrite orb_false_r. rewrite <- EN. apply cos_sum; lia. }
  rewrite (rsum_ext _ _ (fun r => / 2 * cos (INR r * (IZR (k - l) * (2 * PI / INR (Z.to_nat N)))) + / 2 * cos (INR r * (IZR (k + l) * (2 * PI / INR (Z.to_nat N)))))).
  - rewrite rsum_plus, !rsum_scal, A, B. destruct (Z.eqb_spec k l), (Z.eqb_spec (k - l) 0), (Z.eqb_spec (k + l) 0), (Z.eqb_spec (k + l) N), (Z.eqb_spec k 0), (Z.eqb_spec (2 * k) N); cbn [orb]; try lia; lra.
  - intros r _. rewrite EN, minus_IZR, plus_IZR. set (t := 2 * PI / IZR N). replace (INR r * ((IZR k - IZR l) * t)) with (IZR k * (INR r * t) - IZR l * (INR r * t)) by ring. replace (INR r * ((IZR k + IZR l) * t)) with (IZR k * (INR r * t) + IZR l * (INR r * t)) by ring. rewrite cos_minus, cos_plus. lra.
Qed.

(** * C_N *)
Lemma cyc_chi N k g : (0 < N)%Z -> (0 <= k <= N / 2)%Z -> ir_character (cyc_ir N k) g = (if ((k =? 0) || (2 * k =? N))%Z then 1 else 2) * cos (IZR k * (IZR g * (2 * PI / IZR N))) /\
  INR (ir_sos (cyc_ir N k)) = (if ((k =? 0) || (2 * k =? N))%Z then 1 else 2).
Proof.
  intros HN Hk. unfold cyc_ir, cyc_irrep, ir_character, trace.
  assert (E : ((0 <=? k)%Z && (k <=? N / 2)%Z)%bool = true) by (apply andb_true_iff; lia). rewrite E. cbn [assert_]. assert (H := even_half N k HN).
  destruct (Z.eqb_spec k 0) as [->|Hk0].
  - cbn. split; [|reflexivity]. unfold mid; cbn. rewrite Rmult_0_l, cos_0. lra.
  - cbn [orb]. destruct ((N mod 2 =? 0)%Z && (k =? N / 2)%Z)%bool.
    + assert (N = 2 * k)%Z by (apply H; auto). destruct (Z.eqb_spec (2 * k) N); [|lia]. cbn [dflt ir_sos ir_size ir_mat rsum INR]. split; [|reflexivity]. unfold mat1.
      replace (IZR k * IZR g * (2 * PI / IZR N)) with (IZR k * (IZR g * (2 * PI / IZR N))) by ring. lra.
    + destruct (Z.eqb_spec (2 * k) N); [exfalso; assert (false = true) by (apply H; lia); congruence|]. cbn [dflt ir_sos ir_size ir_mat rsum INR]. split; [|lra].
      unfold psi, mat2. replace (IZR k * (IZR g * (2 * PI / IZR N))) with (IZR k * IZR g * (2 * PI / IZR N)) by ring. replace (IZR k * IZR g * (2 * PI / IZR N)) with (IZR k * (IZR g * (2 * PI / IZR N))) by ring. rewrite Rplus_0_r. lra.
Qed.
Lemma cyc_ks_nodup N : NoDup (cyc_ks N).
Proof. unfold cyc_ks. apply Injective_map_NoDup; [intros a b; lia|apply seq_NoDup]. Qed.
Lemma cyc_order N : (0 < N)%Z -> INR (order (cyc_fg N)) = IZR N.
Proof. intros HN. unfold order. cbn [cyc_fg fg_elements]. unfold cyc_elements. rewrite map_length, seq_length, INR_IZR_INZ, Z2Nat.id by lia. reflexivity. Qed.
Lemma cyc_orth N k l : (0 < N)%Z -> In k (cyc_ks N) -> In l (cyc_ks N) ->
  lsum (map (fun e => ir_character (cyc_ir N k) e * ir_character (cyc_ir N l) e) (fg_elements (cyc_fg N))) = if Z.eq_dec k l then INR (order (cyc_fg N)) * INR (ir_sos (cyc_ir N l)) else 0.
Proof.
  intros HN Hk Hl. apply cyc_ks_in in Hk; [|exact HN]. apply cyc_ks_in in Hl; [|exact HN]. rewrite cyc_order by exact HN. cbn [cyc_fg fg_elements]. unfold cyc_elements. rewrite lsum_seq.
  set (d := fun k => (if ((k =? 0) || (2 * k =? N))%Z then 1 else 2)).
  rewrite (rsum_ext _ _ (fun r => d k * d l * (cos (IZR k * (INR r * (2 * PI / IZR N))) * cos (IZR l * (INR r * (2 * PI / IZR N)))))).
  - rewrite rsum_scal, cos_prod_sum by assumption. rewrite (proj2 (cyc_chi N l 0%Z HN Hl)). unfold d. destruct (Z.eq_dec k l) as [->|NE]; [rewrite Z.eqb_refl; destruct ((l =? 0) || (2 * l =? N))%Z%bool; field|]. destruct (Z.eqb_spec k l); [contradiction|ring].
  - intros r _. rewrite (proj1 (cyc_chi N k (Z.of_nat r) HN Hk)), (proj1 (cyc_chi N l (Z.of_nat r) HN Hl)). rewrite <- INR_IZR_INZ. unfold d. ring.
Qed.
Lemma cyc_rep_ks N r : (0 < N)%Z -> Forall (fun ir => exists k, cyc_irrep N k = Ok ir) r -> exists kl, r = map (cyc_ir N) kl /\ forall k, In k kl -> In k (cyc_ks N).
Proof.
  intros HN. induction 1 as [|ir l [k E] F (kl & -> & IN)]; [exists []; split; [reflexivity|intros k []]|]. exists (k :: kl). split.
  - cbn. f_equal. unfold cyc_ir. rewrite E. reflexivity.
  - intros q [<-|Hq]; [|apply IN, Hq]. apply cyc_ks_in; [exact HN|]. apply (proj1 (cyc_irrep_ok N k HN)). exists ir. exact E.
Qed.
Lemma cyc_multiplicities N r : (0 < N)%Z -> cyc_rep N r -> exists ms, multiplicities (cyc_fg N) (fun e => trace (rp_size r) (rp_mat r e)) = Ok ms /\ Permutation (expand ms) (rp_irreps r).
Proof.
  intros HN [RA RI]. destruct (cyc_rep_ks N _ HN RI) as (kl & E & IN). rewrite E. apply (count_all _ Z.eq_dec (cyc_ir N) (cyc_ks N)).
  - apply cyc_fg_ok, HN.
  - reflexivity.
  - apply cyc_ks_nodup.
  - apply INR_lt. rewrite cyc_order by exact HN. cbn. apply IZR_lt. exact HN.
  - intros k Hk. apply cyc_ks_in in Hk; [|exact HN]. apply INR_lt. rewrite (proj2 (cyc_chi N k 0%Z HN Hk)). change (INR 0) with 0. destruct ((k =? 0) || (2 * k =? N))%Z%bool; lra.
  - intros k l Hk Hl. apply cyc_orth; assumption.
  - exact IN.
  - intros e _. rewrite rep_trace by exact RA. rewrite E, map_map. reflexivity.
Qed.

(** * D_N *)
Lemma dih_chi N jk g : (0 < N)%Z -> dih_irrep_valid N (fst jk) (snd jk) -> In g (dih_elements N) ->
  ir_character (dih_ir N jk) g = (if (fst jk =? 0)%Z then 1 else if ((snd jk =? 0) || (2 * snd jk =? N))%Z then flip_sign (fst g) else 1 + flip_sign (fst g)) * cos (IZR (snd jk) * (IZR (snd g) * (2 * PI / IZR N))).
Proof.
  intros HN Hv Hg. destruct (dih_ir_data N jk HN Hv) as [_ D]. specialize (D g Hg). change (rsum _ _) with (ir_character (dih_ir N jk) g) in D.
  assert (SZ : INR (ir_size (dih_ir N jk)) = if (fst jk =? 0)%Z then 1 else if ((snd jk =? 0) || (2 * snd jk =? N))%Z then 1 else 2).
  { clear D Hg. destruct jk as [j k]. cbn [fst snd] in *. unfold dih_ir, dih_irrep. cbn [fst snd]. assert (Hv' := Hv). destruct Hv' as [Hk Hj].
    assert (E : ((0 <=? k)%Z && (k <=? N / 2)%Z)%bool = true) by (apply andb_true_iff; lia). rewrite E. assert (Ej : ((j =? 0)%Z || (j =? 1)%Z)%bool = true) by (apply orb_true_iff; lia). rewrite Ej. cbn [assert_].
    assert (H := even_half N k HN). destruct (Z.eqb_spec j 0) as [->|Hj0].
    - destruct (Z.eqb_spec k 0); [reflexivity|]. destruct ((N mod 2 =? 0)%Z && (k =? N / 2)%Z)%bool; [reflexivity|]. exfalso. assert (false = true) by (apply H; lia). congruence.
    - destruct (Z.eqb_spec k 0); [reflexivity|]. cbn [orb]. destruct ((N mod 2 =? 0)%Z && (k =? N / 2)%Z)%bool.
      + assert (N = 2 * k)%Z by (apply H; auto). destruct (Z.eqb_spec (2 * k) N); [reflexivity|lia].
      + destruct (Z.eqb_spec (2 * k) N); [exfalso; assert (false = true) by (apply H; lia); congruence|]. cbn. lra. }
  rewrite SZ in D. destruct (fst jk =? 0)%Z; [lra|]. destruct ((snd jk =? 0) || (2 * snd jk =? N))%Z%bool; [lra|]. lra.
Qed.
Lemma dih_ks_nodup N : (0 < N)%Z -> NoDup (dih_ks N).
Proof.
  intros HN. assert (D := Z.div_mod N 2 ltac:(lia)). unfold dih_ks. constructor.
  - rewrite in_app_iff, in_map_iff. intros [[i [E _]]|H]; [discriminate E|]. destruct (Z.eqb_spec (N mod 2) 0); [|destruct H]. destruct H as [E|[]]. injection E as E. lia.
  - destruct (Z.eqb_spec (N mod 2) 0); [|rewrite app_nil_r; apply Injective_map_NoDup; [intros a b E; injection E; lia|apply seq_NoDup]].
    apply (Permutation_NoDup (l := (0, N / 2)%Z :: map (fun k => (1%Z, Z.of_nat k)) (seq 0 (Z.to_nat (N / 2 + 1))))).
    + apply Permutation_cons_append.
    + constructor; [|apply Injective_map_NoDup; [intros a b E; injection E; lia|apply seq_NoDup]]. rewrite in_map_iff. intros [i [E _]]. discriminate E.
Qed.
Definition pair_dec (x y : Z * Z) : {x = y} + {x <> y}.
Proof. decide equality; apply Z.eq_dec. Defined.
Lemma dih_order N : (0 < N)%Z -> INR (order (dih_fg N)) = 2 * IZR N.
Proof. intros HN. unfold order. cbn [dih_fg fg_elements]. unfold dih_elements. rewrite app_length, !map_length, seq_length, plus_INR, INR_IZR_INZ, Z2Nat.id by lia. ring. Qed.
Lemma dih_orth N a b : (0 < N)%Z -> In a (dih_ks N) -> In b (dih_ks N) ->
  lsum (map (fun e => ir_character (dih_ir N a) e * ir_character (dih_ir N b) e) (fg_elements (dih_fg N))) = if pair_dec a b then INR (order (dih_fg N)) * INR (ir_sos (dih_ir N b)) else 0.
Proof.
  intros HN Ha Hb. destruct a as [j k], b as [j' l]. apply dih_ks_in in Ha; [|exact HN]. apply dih_ks_in in Hb; [|exact HN]. rewrite dih_order by exact HN. rewrite (proj1 (dih_ir_data N (j', l) HN Hb)). cbn [dih_fg fg_elements].
  set (c := fun (j k f : Z) => (if (j =? 0)%Z then 1 else if ((k =? 0) || (2 * k =? N))%Z then flip_sign f else 1 + flip_sign f)).
  assert (X : forall f, (f = 0 \/ f = 1)%Z -> lsum (map (fun e => ir_character (dih_ir N (j, k)) e * ir_character (dih_ir N (j', l)) e) (map (fun i => (f, Z.of_nat i)) (seq 0 (Z.to_nat N)))) =
     c j k f * c j' l f * (if Z.eqb k l then (if ((k =? 0) || (2 * k =? N))%Z then IZR N else IZR N / 2) else 0)).
  { intros f Hf. rewrite lsum_seq. rewrite <- (cos_prod_sum N k l HN) by (destruct Ha, Hb; assumption). rewrite <- rsum_scal. apply rsum_ext. intros r Hr.
    assert (IN : In (f, Z.of_nat r) (dih_elements N)) by (unfold dih_elements; apply in_app_iff; destruct Hf as [-> | ->]; [left|right]; apply in_map_iff; exists r; (split; [reflexivity|apply in_seq; lia])).
    rewrite (dih_chi N (j, k) _ HN Ha IN), (dih_chi N (j', l) _ HN Hb IN). cbn [fst snd]. rewrite <- INR_IZR_INZ. unfold c. ring. }
  unfold dih_elements. rewrite map_app, lsum_app, (X 0%Z) by (left; reflexivity). rewrite (X 1%Z) by (right; reflexivity). unfold c.
  assert (F0 : flip_sign 0 = 1) by reflexivity. assert (F1 : flip_sign 1 = -1) by reflexivity. rewrite F0, F1.
  destruct Ha as [Hk Hj], Hb as [Hl Hj']. cbn [INR].
  destruct (pair_dec (j, k) (j', l)) as [E|NE].
  - injection E as -> ->. rewrite Z.eqb_refl. destruct (Z.eqb_spec j' 0); [|destruct (Z.eqb_spec l 0), (Z.eqb_spec (2 * l) N); cbn [orb]; lra]. destruct (Z.eqb_spec l 0), (Z.eqb_spec (2 * l) N); cbn [orb]; try lra. lia.
  - destruct (Z.eqb_spec k l) as [->|]; [|ring]. destruct (Z.eqb_spec j 0) as [->|], (Z.eqb_spec j' 0) as [->|]; try (contradiction NE; reflexivity).
    + destruct (Z.eqb_spec l 0), (Z.eqb_spec (2 * l) N); cbn [orb]; try lra. lia.
    + destruct (Z.eqb_spec l 0), (Z.eqb_spec (2 * l) N); cbn [orb]; try lra. lia.
    + contradiction NE. f_equal. lia.
Qed.
Lemma dih_rep_ks N r : (0 < N)%Z -> Forall (fun ir => exists j k, dih_irrep N j k = Ok ir) r -> exists kl, r = map (dih_ir N) kl /\ forall k, In k kl -> In k (dih_ks N).
Proof.
  intros HN. induction 1 as [|ir l (j & k & E) F (kl & -> & IN)]; [exists []; split; [reflexivity|intros k []]|]. exists ((j, k) :: kl). split.
  - cbn. f_equal. unfold dih_ir. cbn [fst snd]. rewrite E. reflexivity.
  - intros q [<-|Hq]; [|apply IN, Hq]. apply dih_ks_in; [exact HN|]. apply (proj1 (dih_irrep_ok N j k HN)). exists ir. exact E.
Qed.
Lemma dih_multiplicities N r : (0 < N)%Z -> dih_rep N r -> exists ms, multiplicities (dih_fg N) (fun e => trace (rp_size r) (rp_mat r e)) = Ok ms /\ Permutation (expand ms) (rp_irreps r).
Proof.
  intros HN [RA RI]. destruct (dih_rep_ks N _ HN RI) as (kl & E & IN). rewrite E. apply (count_all _ pair_dec (dih_ir N) (dih_ks N)).
  - apply dih_fg_ok, HN.
  - reflexivity.
  - apply dih_ks_nodup, HN.
  - apply INR_lt. rewrite dih_order by exact HN. cbn. assert (0 < IZR N) by (apply IZR_lt; exact HN). lra.
  - intros [j k] Hk. apply dih_ks_in in Hk; [|exact HN]. rewrite (proj1 (dih_ir_data N (j, k) HN Hk)). lia.
  - intros k l Hk Hl. apply dih_orth; assumption.
  - exact IN.
  - intros e _. rewrite rep_trace by exact RA. rewrite E, map_map. reflexivity.
Qed.
