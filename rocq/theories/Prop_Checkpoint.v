(** Theorems C62: checkpoints. *)
From Coq Require Import Reals ZArith String List Bool Lia Lra.
From Verif Require Import Base Spec Model_Groups Model_Rep Proofs_Rep Proofs_Restrict Model_FieldType Proofs_FieldType Model_GSpace Spec_GSpace Proofs_GSpace
  Model_Kernels Model_Utils Model_Expansion Model_Conv Model_ConvT Spec_Conv Proofs_Conv Proofs_Conv2 Proofs_Conv3 Proofs_Conv4 Proofs_Conv5 Proofs_Conv6 Proofs_Conv7 Proofs_Conv8 Proofs_Conv9 Prop_Conv
  Model_Checkpoint Spec_Checkpoint Proofs_Checkpoint Proofs_Checkpoint2.
Import ListNotations.
Open Scope R_scope.

(** the output of a network *)
Definition output {G B} (n : net G B) (x : arr (B -> vec) * ctype G) : result (arr (B -> vec) * ctype G) := rbind (forward n x) (fun y => Ok (fst y)).

(** A network saved after any history of train/eval, parameter updates, forward passes and loads is restored, in every detail of its state,
    in a network with the same layers whose last call of train/eval was the same one, whatever else was done to it.  Part of the claim
    "loading a checkpoint restores the function", which is false in general (below): missing are pairs of different last calls. *)
Theorem C62_restores_partial : forall G B (n0 n0' n n' : net G B) ops ops' strict,
  built_net n0 -> built_net n0' -> same_architecture n0 n0' -> history ops n0 = Ok n -> history ops' n0' = Ok n' -> last_mode ops = last_mode ops' ->
  load_state_dict strict (state_dict n) n' = (n, Ok tt).
Proof.
  intros G B n0 n0' n n' ops ops' strict B0 B0' A H H' L. destruct (history_inv ops None n0 n (built_inv n0 B0) H) as [I A1]. destruct (history_inv ops' None n0' n' (built_inv n0' B0') H') as [I' A1'].
  rewrite <- L in I'. apply (load_same strict _ n n' I I'). exact (arch_trans _ _ _ (arch_sym _ _ A1) (arch_trans _ _ _ A A1')).
Qed.
Print Assumptions C62_restores_partial.

(** Whether a load raises is settled by the last calls of train/eval on the two sides *)
Theorem C62_raises : forall G B (n0 n0' n n' : net G B) ops ops' strict,
  built_net n0 -> built_net n0' -> same_architecture n0 n0' -> history ops n0 = Ok n -> history ops' n0' = Ok n' ->
  let r := snd (load_state_dict strict (state_dict n) n') in
  (r = Ok tt \/ r = Err "RuntimeError"%string) /\
  (r = Ok tt <-> forall a, In a n0 -> is_conv (snd a) ->
     last_mode ops = last_mode ops' \/ (if Bool.eqb (has_buffers (last_mode ops)) (has_buffers (last_mode ops')) then ungrouped (snd a) else strict = false)).
Proof.
  intros G B n0 n0' n n' ops ops' strict B0 B0' A H H'. destruct (history_inv ops None n0 n (built_inv n0 B0) H) as [I A1]. destruct (history_inv ops' None n0' n' (built_inv n0' B0') H') as [I' A1'].
  assert (PH : forall o : option bool, match o with Some b => Some b | None => None end = o) by (intros [?|]; reflexivity). rewrite PH in I, I'.
  cbn zeta. split; [apply snd_load|]. rewrite (load_raises strict _ _ n n' I I' (arch_trans _ _ _ (arch_sym _ _ A1) (arch_trans _ _ _ A A1'))). clear - A1. 
  assert (K : forall P : smod G B -> Prop, (forall u u', same_module u u' -> P u -> P u') -> forall n n' : net G B, same_architecture n n' -> (forall a, In a n -> P (snd a)) -> forall a, In a n' -> P (snd a)).
  { intros P HP m m' F. induction F as [|a a' m m' [_ M] F IH]; intros K b Hb; [destruct Hb|]. destruct Hb as [<-|Hb]; [apply (HP _ _ M), K; cbn; auto|]. apply IH; auto. intros; apply K; cbn; auto. }
  assert (Q : forall u u' : smod G B, same_module u u' -> (is_conv u -> last_mode ops = last_mode ops' \/ (if Bool.eqb (has_buffers (last_mode ops)) (has_buffers (last_mode ops')) then ungrouped u else strict = false)) -> is_conv u' -> last_mode ops = last_mode ops' \/ (if Bool.eqb (has_buffers (last_mode ops)) (has_buffers (last_mode ops')) then ungrouped u' else strict = false)).
  { intros [m st|m st|p tr vals] [m' st'|m' st'|p' tr' vals'] M; cbn [same_module] in M; try contradiction; subst; auto. }
  split; intros X; [apply (K _ Q n n0 (arch_sym _ _ A1) X)|apply (K _ Q n0 n A1 X)].
Qed.
Print Assumptions C62_raises.

(** Whatever the last calls of train/eval, and whether or not the load raises, the parameters arrive: after train() the loader is the saver
    after train().  A loader in training mode (that is, not after eval()) already computes the function that the saver computes in training
    mode, and after eval() it is the saver after train() and eval(). *)
Theorem C62_train_restores : forall G B (n0 n0' n n' : net G B) ops ops' strict,
  built_net n0 -> built_net n0' -> same_architecture n0 n0' -> history ops n0 = Ok n -> history ops' n0' = Ok n' ->
  let loaded := fst (load_state_dict strict (state_dict n) n') in
  (exists m, train true n = Ok m /\ train true loaded = Ok m) /\
  (last_mode ops' <> Some false -> (forall x, output loaded x = rbind (train true n) (fun m => output m x)) /\ train false loaded = rbind (train true n) (train false)).
Proof.
  intros G B n0 n0' n n' ops ops' strict B0 B0' A H H'. destruct (history_inv ops None n0 n (built_inv n0 B0) H) as [I A1]. destruct (history_inv ops' None n0' n' (built_inv n0' B0') H') as [I' A1'].
  assert (PH : forall o : option bool, match o with Some b => Some b | None => None end = o) by (intros [?|]; reflexivity). rewrite PH in I, I'.
  pose proof (arch_trans _ _ _ (arch_sym _ _ A1) (arch_trans _ _ _ A A1')) as AA. cbn zeta. split; [|intros T; split].
  - destruct (train_total n) as (m & E & _). exists m. split; [exact E|]. rewrite (load_train strict _ _ n n' I I' AA). exact E.
  - intros x. exact (load_forward strict _ _ n n' x T I I' AA).
  - exact (load_eval strict _ _ n n' T I I' AA).
Qed.
Print Assumptions C62_train_restores.

Lemma make_ins {Rp At Id} (rname : Rp -> string) rsize eqb (at_id : At -> Id) ins outs S gen b : be_make rname rsize eqb at_id ins outs S gen = Ok b -> be_in b = ins.
Proof. intros H. unfold be_make in H. apply rbind_ok in H as [blocks [_ H]]. cbn zeta in H. apply rbind_ok in H as [contig [_ H]]. injection H as <-. reflexivity. Qed.
(** In C62_raises, [ungrouped] is the argument groups=1: the buffer filter that R2Conv registers in its constructor has the shape of an ungrouped
    filter (r2convolution.py:275), which differs from the one that eval() stores (r2convolution.py:304-305) when groups > 1 *)
Theorem C62_ungrouped : forall G (tin tout : ctype G) k p stride dil mode groups bias sigma fco rings mo bf m st B,
  (forall r, In r (ft_reps tin) -> (0 < rp_size r)%nat) ->
  r2conv_make tin tout k (PadInt p) stride dil mode groups bias sigma fco rings mo bf = Ok m ->
  (ungrouped (UConv m st : smod G B) <-> (groups <= 1)%nat).
Proof.
  intros G tin tout k p stride dil mode groups bias sigma fco rings mo bf m st B POS M. destruct (make_made _ _ _ _ p _ _ _ _ _ _ _ _ _ _ _ M eq_refl) as (ir & keep' & rgs & sig & maxf & IR & MD & EM).
  cbn [ungrouped]. rewrite (make_ins _ _ _ _ _ _ _ _ _ (md_exp MD)), (md_in MD). destruct (dim_nonempty _ _ _ _ kid_eqb _ _ _ _ _ (md_exp MD) (md_dim MD)) as [NE _]. pose proof (md_groups MD) as G1. unfold group_in in G1. destruct (Nat.ltb_spec 1 groups) as [L|L].
  - repeat (apply assert_ok in G1 as [? G1]). injection G1 as <-. split; [|lia]. intros E. exfalso. unfold ct_size, ft_size in E. revert E NE POS.
    assert (K : (length (ft_reps tin) / groups <= length (ft_reps tin) / 2)%nat) by (apply Nat.div_le_compat_l; lia). revert K. generalize (length (ft_reps tin) / groups)%nat. intros q K E NE POS.
    assert (K2 : (q < length (ft_reps tin))%nat). { destruct (ft_reps tin) as [|a l]; [rewrite firstn_nil in NE; congruence|]. pose proof (Nat.div_lt (length (a :: l)) 2). cbn [length] in *. lia. }
    rewrite <- (firstn_skipn q (ft_reps tin)) in E at 2. rewrite map_app, nsum_app in E. destruct (skipn q (ft_reps tin)) as [|a l] eqn:SK; [apply (f_equal (@length _)) in SK; rewrite skipn_length in SK; cbn in SK; lia|].
    assert (P : (0 < rp_size a)%nat) by (apply POS; rewrite <- (firstn_skipn q (ft_reps tin)), SK; apply in_or_app; cbn; auto). cbn in E. lia.
  - injection G1 as <-. split; [auto|]. reflexivity.
Qed.
Print Assumptions C62_ungrouped.

(** ** the witnesses *)
Lemma c4_witness : exists (m : r2conv Z) (w : list R) (f : filter_t) (x : arr (unit -> vec)),
  r2conv_make c4_type c4_type 3 (PadInt 1) 1 1 "zeros" 1 true (SigList [1 / 2; 1 / 2]) (FcoFun (fun _ => 2)) (Some [0; 1]) None None = Ok m /\
  length w = be_dimension kid_eqb (cv_exp m) /\ cv_bias m = Some (bias_cols 0 [c4_rep]) /\ nsum (map rp_size (be_in (cv_exp m))) = ct_size (cv_in m) /\
  (forall b, expand_parameters m w b = Ok (f, Some (expand_bias (bias_cols 0 [c4_rep]) b))) /\
  (forall fb, exists y, forall st, used_params m st = Ok fb -> conv_forward m st c4_type x = Ok (y, c4_type)) /\
  exists r, forall b, exists y, (forall st, used_params m st = Ok (f, Some (expand_bias (bias_cols 0 [c4_rep]) b)) -> conv_forward m st c4_type x = Ok (y, c4_type)) /\ a_px y 0%nat 0%nat tt 0%nat = expand_bias (bias_cols 0 [c4_rep]) b 0%nat + r.
Proof.
  destruct C28_ex as [m [CA M]]. exists m. destruct (c4_conv 1) as [m' [keep [M' [B _]]]]. rewrite M in M'. injection M' as <-.
  destruct (C28_R2Conv _ _ _ _ _ _ _ _ _ _ _ _ _ _ _ _ _ _ CA (Nat.lt_0_succ 0) M) as [params [_ [D L]]]. destruct L as [first [_ [_ [_ [_ L]]]]].
  set (w := repeat 1 (be_dimension kid_eqb (cv_exp m))). destruct (L D w) as [f [Hf _]]; [apply repeat_length|].
  set (x := MkArr 3 4 (fun i j (_ : unit) c => INR (i + j + c)) : arr (unit -> vec)). exists w, f, x.
  assert (TE : ft_eqb space_eqb rep_eqb c4_type c4_type = true). { unfold ft_eqb. cbn. rewrite rep_eqb_refl. reflexivity. }
  destruct (make_made _ _ _ _ 1%nat _ _ _ _ _ _ _ _ _ _ _ M eq_refl) as (ir & keep' & rgs & sig & maxf & IR & MD & EM).
  assert (IN := md_in MD). assert (OUT := md_out MD). cbn in EM. injection EM as EM.
  assert (RUN : forall fb, exists y, run_conv m fb x = Ok y).
  { intros fb. unfold run_conv. rewrite (md_pad MD), IN, OUT, (md_k MD), (md_stride MD), (md_dil MD), (md_grp MD), <- EM. eexists. reflexivity. }
  split; [exact M|]. split; [apply repeat_length|]. split; [exact B|]. split; [|split; [|split]].
  - rewrite (make_ins _ _ _ _ _ _ _ _ _ (md_exp MD)), IN. assert (G := md_groups MD). unfold group_in in G. cbn in G. injection G as <-. reflexivity.
  - intros b. unfold expand_parameters. rewrite Hf. cbn [rbind]. rewrite B. reflexivity.
  - intros fb. destruct (RUN fb) as [y Y]. exists y. intros st U. unfold conv_forward. rewrite IN, TE, U. cbn [assert_ rbind]. etransitivity; [exact (f_equal (fun r => rbind r (fun y0 => Ok (y0, cv_out m))) Y)|]. cbn [rbind]. rewrite OUT. reflexivity.
  - assert (R : exists r, forall b, exists y, run_conv m (f, Some (expand_bias (bias_cols 0 [c4_rep]) b)) x = Ok y /\ a_px y 0%nat 0%nat tt 0%nat = expand_bias (bias_cols 0 [c4_rep]) b 0%nat + r).
    { eexists. intros b. unfold run_conv. cbn [fst snd]. rewrite (md_pad MD), IN, OUT, (md_k MD), (md_stride MD), (md_dil MD), (md_grp MD), <- EM. eexists. split; [reflexivity|]. cbn [a_px snd]. reflexivity. }
    destruct R as [r R]. exists r. intros b. destruct (R b) as [y [Y E]]. exists y. split; [|exact E]. intros st U. unfold conv_forward. rewrite IN, TE, U. cbn [assert_ rbind]. etransitivity; [exact (f_equal (fun r => rbind r (fun y0 => Ok (y0, cv_out m))) Y)|]. cbn [rbind]. rewrite OUT. reflexivity.
Qed.

Lemma c4_biases_differ : expand_bias (bias_cols 0 [c4_rep]) [2] 0%nat <> expand_bias (bias_cols 0 [c4_rep]) [3] 0%nat.
Proof. cbn. unfold mid. cbn. lra. Qed.
Lemma built_conv (m : r2conv Z) w (b : R) : cv_bias m = Some (bias_cols 0 [c4_rep]) -> length w = be_dimension kid_eqb (cv_exp m) -> built_net (B := unit) [("conv"%string, UConv m (initial_state m w [b]))].
Proof.
  intros CB LW. split; [repeat constructor; cbn; tauto|]. intros a [<-|[]]. exists w, [b]. split; [exact LW|]. split; [|reflexivity]. rewrite CB. reflexivity.
Qed.

(** A layer registers the buffers filter and expanded_bias as zeros in its constructor.  A checkpoint of a network on which train() and eval()
    were never called, loaded into a network after eval(), is accepted (strict); the zeros replace the filters, and the network
    computes another function than the one saved. *)
Theorem C62_fresh_refuted : exists (n n' n'' loaded : net Z unit) x y z,
  built_net n /\ built_net n' /\ same_architecture n n' /\ train false n' = Ok n'' /\ load_state_dict true (state_dict n) n'' = (loaded, Ok tt) /\
  output n x = Ok y /\ output loaded x = Ok z /\ (snd y = snd z) /\ a_px (fst y) 0%nat 0%nat tt 0%nat <> a_px (fst z) 0%nat 0%nat tt 0%nat.
Proof.
  destruct c4_witness as (m & w & f & x & M & LW & CB & UG & U & RUN & r & R).
  set (net1 := fun b => [("conv"%string, UConv m (initial_state m w [b]))] : net Z unit).
  destruct (RUN ((fun _ _ _ => 0), Some (fun _ => 0))) as [z Z].
  assert (LOAD : forall b, exists loaded n'', train false (net1 0) = Ok n'' /\ load_state_dict true (state_dict (net1 b)) n'' = (loaded, Ok tt) /\ output loaded (x, c4_type) = Ok (z, c4_type)).
  { intros b. exists [("conv"%string, UConv m (MkCS false w [b] (Some (fun _ _ _ => 0)) (Some (Some (fun _ => 0)))))]. eexists. split; [|split].
    - unfold net1, train. cbn [rmap fst snd smod_train initial_state]. unfold conv_train. cbn [cs_training cs_w cs_b]. rewrite U. cbn [rbind fst snd]. reflexivity.
    - unfold load_state_dict, state_dict, net1, initial_state, copied. cbn [map flat_map entries put_entries fst snd]. unfold conv_fshape. cbn [cs_training]. rewrite CB, UG. unfold cstate_load, cstate_entries. cbn. rewrite ?Nat.eqb_refl. cbn. rewrite ?Nat.eqb_refl. cbn. reflexivity.
    - unfold output. cbn [forward smod_forward fst snd]. rewrite Z by reflexivity. reflexivity. }
  assert (OUT : forall b, exists y, output (net1 b) (x, c4_type) = Ok (y, c4_type) /\ a_px y 0%nat 0%nat tt 0%nat = expand_bias (bias_cols 0 [c4_rep]) [b] 0%nat + r).
  { intros b. destruct (R [b]) as (y & Y & E). exists y. split; [|exact E]. unfold output, net1. cbn [forward smod_forward fst snd]. rewrite Y; [reflexivity|]. unfold used_params. cbn [initial_state cs_training cs_w cs_b]. apply U. }
  destruct (OUT 2) as (y2 & O2 & E2), (OUT 3) as (y3 & O3 & E3).
  assert (X : exists b y, output (net1 b) (x, c4_type) = Ok (y, c4_type) /\ a_px y 0%nat 0%nat tt 0%nat <> a_px z 0%nat 0%nat tt 0%nat).
  { destruct (Req_EM_T (a_px y2 0%nat 0%nat tt 0%nat) (a_px z 0%nat 0%nat tt 0%nat)) as [E|E]; [|exists 2, y2; auto]. exists 3, y3. split; [exact O3|]. rewrite <- E, E2, E3. pose proof c4_biases_differ. lra. }
  destruct X as (b & y & Y & E). destruct (LOAD b) as (loaded & n'' & T & L & O). exists (net1 b), (net1 0), n'', loaded, (x, c4_type), (y, c4_type), (z, c4_type).
  split; [apply built_conv; auto|]. split; [apply built_conv; auto|]. split; [repeat constructor|]. auto 8.
Qed.
Print Assumptions C62_fresh_refuted.

(** With strict=False a checkpoint taken after train() is accepted after eval(); the stored filters are not recomputed, and the network goes on
    computing the function it computed before the load. *)
Theorem C62_nonstrict_refuted : exists (n n' m m' loaded : net Z unit) x y z,
  built_net n /\ built_net n' /\ same_architecture n n' /\ train true n = Ok m /\ train false n' = Ok m' /\ load_state_dict false (state_dict m) m' = (loaded, Ok tt) /\
  output m x = Ok y /\ output m' x = Ok z /\ output loaded x = Ok z /\ a_px (fst y) 0%nat 0%nat tt 0%nat <> a_px (fst z) 0%nat 0%nat tt 0%nat.
Proof.
  destruct c4_witness as (m & w & f & x & M & LW & CB & UG & U & RUN & r & R).
  destruct (R [2]) as (y & Y & E2), (R [3]) as (z & Z & E3).
  exists [("conv"%string, UConv m (initial_state m w [2]))], [("conv"%string, UConv m (initial_state m w [3]))], [("conv"%string, UConv m (MkCS true w [2] None None))],
    [("conv"%string, UConv m (MkCS false w [3] (Some f) (Some (Some (expand_bias (bias_cols 0 [c4_rep]) [3])))))], [("conv"%string, UConv m (MkCS false w [2] (Some f) (Some (Some (expand_bias (bias_cols 0 [c4_rep]) [3])))))], (x, c4_type), (y, c4_type), (z, c4_type).
  split; [apply built_conv; auto|]. split; [apply built_conv; auto|]. split; [repeat constructor|]. split; [reflexivity|]. split; [|split; [|split; [|split; [|split]]]].
  - unfold train. cbn [rmap fst snd smod_train initial_state]. unfold conv_train. cbn [cs_training cs_w cs_b]. rewrite U. reflexivity.
  - unfold load_state_dict, state_dict, copied. cbn [map flat_map entries put_entries fst snd]. unfold conv_fshape. cbn [cs_training]. rewrite CB. unfold cstate_load, cstate_entries. cbn. rewrite ?Nat.eqb_refl. cbn. rewrite ?Nat.eqb_refl. cbn. reflexivity.
  - unfold output. cbn [forward smod_forward fst snd]. rewrite Y; [reflexivity|]. apply U.
  - unfold output. cbn [forward smod_forward fst snd]. rewrite Z; reflexivity.
  - unfold output. cbn [forward smod_forward fst snd]. rewrite Z; reflexivity.
  - cbn [fst]. rewrite E2, E3. pose proof c4_biases_differ. lra.
Qed.
Print Assumptions C62_nonstrict_refuted.

(** non-vacuous: a network with a convolution and a normalisation with one running value, saved and restored in evaluation mode after other histories *)
Definition norm_like : plain Z unit := {| pl_names := [("running_var"%string, [1%nat])];
  pl_forward := fun training vals x => if training then Ok (x, [[a_px (fst x) 0%nat 0%nat tt 0%nat]]) else Ok ((MkArr (a_h (fst x)) (a_w (fst x)) (fun i j b c => a_px (fst x) i j b c / nth 0 (nth 0 vals []) 0), snd x), vals) |}.
Example C62_ex : exists (n0 n0' n n' : net Z unit) x, built_net n0 /\ built_net n0' /\ same_architecture n0 n0' /\
  history [HForward x; HUpdate (fun _ e t => if String.eqb e "bias" then nums [2] else t); HTrain false; HForward x] n0 = Ok n /\ history [HTrain true; HForward x; HTrain false] n0' = Ok n' /\ state_dict n <> state_dict n' /\
  load_state_dict true (state_dict n) n' = (n, Ok tt).
Proof.
  destruct c4_witness as (m & w & f & x & M & LW & CB & UG & U & RUN & r & RR). destruct (RR [2]) as (y & Y & E2), (RR [3]) as (z & Z3 & E3), (RR [1]) as (v & V & E1).
  set (net1 := fun b => [("conv"%string, UConv m (initial_state m w [b])); ("norm"%string, UPlain norm_like true [[0]])] : net Z unit).
  assert (BN : forall b, built_net (net1 b)).
  { intros b. split; [repeat constructor; cbn; try tauto; intros [?|?]; [discriminate|tauto]|]. intros a [<-|[<-|[]]]; [exists w, [b]; split; [exact LW|split; [rewrite CB; reflexivity|reflexivity]]|].
    split; [reflexivity|]. split; [repeat constructor|]. split; [repeat constructor; cbn; tauto|]. intros tr vals u v0 S H. cbn in H. destruct tr; injection H as <-; [repeat constructor|exact S]. }
  assert (H1 : exists n, history [HForward (x, c4_type); HUpdate (fun _ e t => if String.eqb e "bias" then nums [2] else t); HTrain false; HForward (x, c4_type)] (net1 1) = Ok n /\ find_key ("conv", "bias")%string (state_dict n) = Some (nums [2])). { eexists. split.
    - cbn [history hstep]. unfold net1 at 1. cbn [forward smod_forward fst snd]. rewrite V by apply U. cbn. unfold cstate_load. rewrite CB. cbn. rewrite ?Nat.eqb_refl. cbn. unfold conv_train. cbn. rewrite U. cbn. rewrite Y by reflexivity. cbn. reflexivity.
    - unfold state_dict. cbn [flat_map map fst snd entries]. rewrite CB. reflexivity. }
  assert (H2 : exists n, history [HTrain true; HForward (x, c4_type); HTrain false] (net1 3) = Ok n /\ find_key ("conv", "bias")%string (state_dict n) = Some (nums [3])). { eexists. split.
    - cbn [history hstep]. unfold net1 at 1. cbn. rewrite Z3 by apply U. cbn. unfold conv_train. cbn. rewrite U. cbn. reflexivity.
    - unfold state_dict. cbn [flat_map map fst snd entries]. rewrite CB. reflexivity. }
  destruct H1 as (n & H1 & F1), H2 as (n' & H2 & F2). exists (net1 1), (net1 3), n, n', (x, c4_type). repeat (split; auto).
  - repeat constructor.
  - intros E. rewrite E, F2 in F1. injection F1 as F1. lra.
  - eapply C62_restores_partial; eauto; repeat constructor.
Qed.
