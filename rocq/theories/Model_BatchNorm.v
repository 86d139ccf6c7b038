(** Model of e2cnn/nn/modules/batchnormalization/{inner,norm,induced_norm,gnorm}.py.
    A batch is a tensor together with the number n of its points: a channel is a function of the point, which stands for a
    sample of the batch and a position in the image, 0 <= point < n = b*h*w.  n may differ from batch to batch.
    Forward passes return the module after the call: its buffers are part of the state. *)
From Coq Require Import Reals ZArith String List Bool.
From Verif Require Import Base Model_Groups Model_Rep Model_FieldType Model_Utils Model_Modules Model_Fieldwise.
Import ListNotations.
Open Scope R_scope.

(** ** Statistics *)
(** N/(N-1) if N > 1 else 1 (norm.py:207, induced_norm.py:223, gnorm.py:312) *)
Definition bessel (N : nat) : R := if (1 <? N)%nat then INR N / (INR N - 1) else 1.
(** norm.py:162-167: the weight of the current batch in the running statistics; [batches]: num_batches_tracked, incremented *)
Definition factor (momentum : option R) (batches : nat) : R := match momentum with None => 1 / INR batches | Some m => m end.
(** running *= 1 - factor; running += factor * new *)
Definition ema (f old new : R) : R := old * (1 - f) + f * new.
(** the buffers of the groups, addressed by the key of the group (setattr / register_buffer with the key in the name) *)
Definition set_at {K S} (keqb : K -> K -> bool) (st : K -> S) (k : K) (s : S) : K -> S := fun k' => if keqb k k' then s else st k'.

Section Loops.
Context {K S A : Type} (keqb : K -> K -> bool) (key : K -> string) (idx : list (string * chan_set)).
(** for each group: read its channels and update its buffer (norm.py:183-216) *)
Fixpoint stat_loop (upd : K -> S -> list A -> result S) (x : list A) (order : list K) (st : K -> S) : result (K -> S) :=
  match order with
  | [] => Ok st
  | k :: order' =>
    rbind (attr_of idx (key k)) (fun ci =>
    rbind (gather ci x) (fun fm =>
    rbind (upd k (st k) fm) (fun s =>
    stat_loop upd x order' (set_at keqb st k s))))
  end.
(** for each group: output[:, indices] op= ..., where output is both read and written (norm.py:223-251; augmented assignment
    to a subscript writes the result back, also when the subscript is a list of channels) *)
Fixpoint self_loop (op : K -> list A -> result (list A)) (order : list K) (out : list A) : result (list A) :=
  match order with
  | [] => Ok out
  | k :: order' =>
    rbind (attr_of idx (key k)) (fun ci =>
    rbind (gather ci out) (fun fm =>
    rbind (op k fm) (fun vals =>
    rbind (scatter ci out vals) (fun out' => self_loop op order' out'))))
  end.
(** for each group: read its channels, update its buffer and write its output (inner.py:132-146, gnorm.py:203-262) *)
Fixpoint state_loop (step : K -> S -> list A -> result (S * list A)) (x : list A) (order : list K) (st : K -> S) (out : list A)
  : result ((K -> S) * list A) :=
  match order with
  | [] => Ok (st, out)
  | k :: order' =>
    rbind (attr_of idx (key k)) (fun ci =>
    rbind (gather ci x) (fun fm =>
    rbind (step k (st k) fm) (fun sv =>
    rbind (scatter ci out (snd sv)) (fun out' => state_loop step x order' (set_at keqb st k (fst sv)) out'))))
  end.
End Loops.

Section BatchNorm.
Context {GS G : Type} (gs_eqb : GS -> GS -> bool) (rp_eqb : rep G -> rep G -> bool).
Notation ftype := (ftype GS (rep G)).
Notation chan := (nat -> R).
Notation gtensor := (gtensor GS (rep G) chan).
Notation type_eqb := (ft_eqb gs_eqb rp_eqb).

(** representation.py:247-256 [is_trivial] of an irrep *)
Definition ir_trivial (i : irrep G) : bool := ((ir_freq i =? 0)%Z && (ir_flip i =? 0)%Z)%bool.
Definition no_trivial (t : ftype) : bool := forallb (fun r => forallb (fun i => negb (ir_trivial i)) (rp_irreps r)) (ft_reps t).

(** ** NormBatchNorm and InducedNormBatchNorm
    The two classes differ in the key of a group: the size of its fields, or the pair of that size and the size of their
    sub-fields; [ksub]: the size of the sub-fields (of the field itself for NormBatchNorm). *)
Section NormBN.
Context {K : Type} (keqb : K -> K -> bool) (key : K -> string) (ksize ksub : K -> nat).
Record nbn : Type := MkNB {
  nb_in : ftype; nb_keys : list K;                  (* the key of each field *)
  nb_idx : list (string * chan_set); nb_eps : R; nb_momentum : option R;
  nb_weight : option (K -> list R); nb_var : K -> list R; nb_batches : nat }.
(** norm.py:84-132, induced_norm.py:89-143: the groups, buffers and parameters *)
Definition nfields (keys : list K) (k : K) : nat := length (filter (keqb k) keys).
Definition nbn_build (t : ftype) (keys : list K) (eps : R) (momentum : option R) (affine : bool) : result nbn :=
  rbind (group_index (map (fun k => (key k, ksize k)) keys)) (fun idx =>
  Ok (MkNB t keys idx eps momentum (if affine then Some (fun k => repeat 1 (nfields keys k)) else None)
       (fun k => repeat 1 (nfields keys k)) 0)).
(** the squared norm of a sub-field, a function of the point *)
Definition sq_norm (b : list chan) : chan := fun p => fold_right Rplus 0 (map (fun c => c p * c p) b).
(** norm.py:189-209, induced_norm.py:205-225: the variance of one field, given by its sub-fields: the mean of their squared
    norms over the points and the sub-fields, divided by the size of the sub-fields, times the correction *)
Definition field_var (n sub : nat) (subs : list (list chan)) : R :=
  fold_right Rplus 0 (map (fun b => rsum n (sq_norm b)) subs) / INR (length subs * n) / INR sub * bessel (length subs * n).
(** the variances of the fields of a group; the mean of an empty batch is not a number *)
Definition group_vars (n s sub : nat) (fm : list chan) : result (list R) :=
  if (n =? 0)%nat then Err "nan"%string else
  rbind (view_fields s fm) (fun bl => rbind (rmap (view_fields sub) bl) (fun bll => Ok (map (field_var n sub) bll))).
(** norm.py:213-214: running_var *= 1 - factor; running_var += factor * vars *)
Definition upd_vars (f : R) (n s sub : nat) (old : list R) (fm : list chan) : result (list R) :=
  rbind (group_vars n s sub fm) (fun vars => rbind (zip_eq old vars) (fun z => Ok (map (fun p => ema f (fst p) (snd p)) z))).
(** norm.py:230-238: weight / (vars + eps).sqrt(); dividing by zero or by the root of a negative number gives no finite number *)
Definition multipliers (eps : R) (weight : option (list R)) (vars : list R) : result (list R) :=
  rbind (match weight with Some w => zip_eq w vars | None => Ok (map (fun v => (1, v)) vars) end) (fun z =>
  rmap (fun wv => if Rle_dec (snd wv + eps) 0 then Err "nan"%string else Ok (fst wv / sqrt (snd wv + eps))) z).
(** norm.py:241-248: output[...] *= multipliers.expand(b, -1, s, h, w).reshape(b, -1, h, w) *)
Definition scale_group (s : nat) (mult : list R) (fm : list chan) : result (list chan) :=
  times fm (concat (map (fun m => repeat (fun _ => m) s) mult)).
(** norm.py:127, induced_norm.py:138: _order = list(_indices.keys()) *)
Definition nb_order (m : nbn) : list K := first_seen keqb (nb_keys m).
(** norm.py:146-254, induced_norm.py:159-269 [forward], on a batch with n points.  In training mode, too, the normalisation
    uses the running variances (after the update). *)
Definition nbn_forward (training : bool) (n : nat) (m : nbn) (x : gtensor) : result (gtensor * nbn) :=
  assert_ (type_eqb (gt_type x) (nb_in m))
  (let batches := if training then S (nb_batches m) else nb_batches m in
   rbind (if training
          then stat_loop keqb key (nb_idx m) (fun k old fm => upd_vars (factor (nb_momentum m) batches) n (ksize k) (ksub k) old fm)
                 (gt_data x) (nb_order m) (nb_var m)
          else Ok (nb_var m)) (fun vars =>
   rbind (self_loop key (nb_idx m) (fun k fm =>
            rbind (multipliers (nb_eps m) (match nb_weight m with Some w => Some (w k) | None => None end) (vars k)) (fun mult =>
            scale_group (ksize k) mult fm)) (nb_order m) (gt_data x)) (fun d =>
   rbind (mk_gt rp_size d (nb_in m)) (fun y =>
   Ok (y, MkNB (nb_in m) (nb_keys m) (nb_idx m) (nb_eps m) (nb_momentum m) (nb_weight m) vars batches))))).
(** norm.py:134-138, induced_norm.py:147-151 [reset_running_stats] *)
Definition nbn_reset (m : nbn) : nbn :=
  MkNB (nb_in m) (nb_keys m) (nb_idx m) (nb_eps m) (nb_momentum m) (nb_weight m) (fun k => repeat 1 (nfields (nb_keys m) k)) 0.
(** norm.py:140-144, induced_norm.py:153-157 [reset_parameters]; [w]: the new weights (uniform random numbers in NormBatchNorm,
    ones in InducedNormBatchNorm).  Without affine there is no weight attribute. *)
Definition nbn_reset_parameters (w : K -> list R) (m : nbn) : result nbn :=
  match nb_keys m, nb_weight m with
  | _ :: _, None => Err "AttributeError"%string
  | _, ow => Ok (MkNB (nb_in m) (nb_keys m) (nb_idx m) (nb_eps m) (nb_momentum m) (match ow with Some _ => Some w | None => None end)
                   (fun k => repeat 1 (nfields (nb_keys m) k)) 0)
  end.
End NormBN.
(** norm.py:21-132 [NormBatchNorm.__init__] *)
Definition norm_bn_make (t : ftype) (eps : R) (momentum : option R) (affine : bool) : result (nbn (K:=nat)) :=
  assert_ (all_support "norm" t) (assert_ (no_trivial t)
  (nbn_build Nat.eqb py_str (fun s => s) t (map rp_size (ft_reps t)) eps momentum affine)).
(** induced_norm.py:21-143 [InducedNormBatchNorm.__init__] *)
Definition induced_bn_make (t : ftype) (eps : R) (momentum : option R) (affine : bool) : result (nbn (K:=nat * nat)) :=
  assert_ (forallb (fun r => existsb (starts_with "induced_norm") (rp_nonlin r)) (ft_reps t)) (assert_ (no_trivial t)
  (rbind (rmap (field_id "induced_norm") (ft_reps t)) (fun ids =>
   nbn_build pair_eqb pair_str (fun i => fst i) t ids eps momentum affine))).

(** ** torch.nn.BatchNorm3d (torch/nn/modules/batchnorm.py, torch.nn.functional.batch_norm), not part of the repository
    The buffers are None without track_running_stats, the parameters without affine. *)
Record bn3d : Type := MkBN { bn_params : option (list (R * R)); bn_stats : option (list (R * R)); bn_batches : nat }.
(** weight one, bias zero; mean zero, variance one *)
Definition bn3d_make (features : nat) (affine track : bool) : bn3d :=
  MkBN (if affine then Some (repeat (1, 0) features) else None) (if track then Some (repeat (0, 1) features) else None) 0.
(** mean and biased variance of the values of a feature: a block of channels at all the points *)
Definition feat_mean (n : nat) (b : list chan) : R := fold_right Rplus 0 (map (rsum n) b) / INR (length b * n).
Definition feat_var (n : nat) (b : list chan) : R :=
  fold_right Rplus 0 (map (fun c => rsum n (fun p => (c p - feat_mean n b) * (c p - feat_mean n b))) b) / INR (length b * n).
(** (x - mean) / sqrt(var + eps) * weight + bias *)
Definition feat_norm (eps : R) (stat par : R * R) (b : list chan) : result (list chan) :=
  if Rle_dec (snd stat + eps) 0 then Err "nan"%string
  else Ok (map (fun c : chan => fun p => (c p - fst stat) / sqrt (snd stat + eps) * fst par + snd par) b).
(** forward in training or evaluation mode; [s]: the number of channels in a feature.  Batch statistics are used in training
    mode or without buffers; they need more than one value per feature. *)
Definition bn3d_forward (training : bool) (eps : R) (momentum : option R) (n s : nat) (m : bn3d) (bl : list (list chan))
  : result (bn3d * list (list chan)) :=
  let track := match bn_stats m with Some _ => true | None => false end in
  let batches := if (training && track)%bool then S (bn_batches m) else bn_batches m in
  let use_batch := (training || negb track)%bool in
  if (use_batch && (s * n =? 1)%nat)%bool then Err "ValueError"%string else
  if (use_batch && (s * n =? 0)%nat)%bool then Err "nan"%string else
  let batch := map (fun b => (feat_mean n b, feat_var n b)) bl in
  rbind (match bn_stats m with
         | Some st => if training
                      then rbind (zip_eq st batch) (fun z => Ok (Some (map (fun ob =>
                             (ema (factor momentum batches) (fst (fst ob)) (fst (snd ob)),
                              ema (factor momentum batches) (snd (fst ob)) (snd (snd ob) * bessel (s * n)))) z)))
                      else Ok (Some st)
         | None => Ok None end) (fun stats' =>
  rbind (zip_eq (if use_batch then batch else match bn_stats m with Some st => st | None => [] end) bl) (fun z =>
  rbind (match bn_params m with Some pr => zip_eq pr z | None => Ok (map (fun v => ((1, 0), v)) z) end) (fun z' =>
  rbind (rmap (fun v => feat_norm eps (fst (snd v)) (fst v) (snd (snd v))) z') (fun out =>
  Ok (MkBN (bn_params m) stats' batches, out))))).

(** ** InnerBatchNorm *)
Record ibn : Type := MkIB {
  ib_in : ftype; ib_idx : list (string * chan_set); ib_eps : R; ib_momentum : option R; ib_affine : bool; ib_track : bool;
  ib_bn : nat -> bn3d }.                            (* the batch_norm_[s] sub-modules *)
Definition ib_sizes (m : ibn) : list nat := map rp_size (ft_reps (ib_in m)).
(** inner.py:20-102 [__init__] *)
Definition inner_make (t : ftype) (eps : R) (momentum : option R) (affine track : bool) : result ibn :=
  assert_ (all_support "pointwise" t)
  (rbind (group_index (by_size t)) (fun idx =>
   Ok (MkIB t idx eps momentum affine track (fun s => bn3d_make (nfields Nat.eqb (map rp_size (ft_reps t)) s) affine track)))).
(** inner.py:114-149 [forward] *)
Definition inner_forward (training : bool) (n : nat) (junk : nat -> chan) (m : ibn) (x : gtensor) : result (gtensor * ibn) :=
  assert_ (type_eqb (gt_type x) (ib_in m))
  (rbind (state_loop Nat.eqb py_str (ib_idx m) (fun s bn fm =>
            rbind (view_fields s fm) (fun bl => rbind (bn3d_forward training (ib_eps m) (ib_momentum m) n s bn bl) (fun r =>
            Ok (fst r, concat (snd r)))))
          (gt_data x) (first_seen Nat.eqb (ib_sizes m)) (ib_bn m) (empty junk (length (gt_data x)))) (fun so =>
   rbind (mk_gt rp_size (snd so) (ib_in m)) (fun y =>
   Ok (y, MkIB (ib_in m) (ib_idx m) (ib_eps m) (ib_momentum m) (ib_affine m) (ib_track m) (fst so))))).
(** inner.py:104-107 [reset_running_stats] (torch: running mean zero, variance one, no batches, if they are tracked) *)
Definition inner_reset (m : ibn) : ibn :=
  MkIB (ib_in m) (ib_idx m) (ib_eps m) (ib_momentum m) (ib_affine m) (ib_track m) (fun s =>
    let bn := ib_bn m s in
    MkBN (bn_params bn) (match bn_stats bn with Some l => Some (repeat (0, 1) (length l)) | None => None end)
         (match bn_stats bn with Some _ => 0%nat | None => bn_batches bn end)).
(** torch.nn.BatchNorm2d in evaluation mode with running statistics [st] and parameters, on a plain list of channels *)
Definition bn2d_eval (eps : R) (params : option (list (R * R))) (st : list (R * R)) (d : list chan) : result (list chan) :=
  rbind (zip_eq st d) (fun z =>
  rbind (match params with Some pr => zip_eq pr z | None => Ok (map (fun v => ((1, 0), v)) z) end) (fun z' =>
  rbind (rmap (fun v => feat_norm eps (fst (snd v)) (fst v) [snd (snd v)]) z') (fun out => Ok (concat out)))).
(** inner.py:163-216 [export]: the parameters and statistics of the BatchNorm2d; it starts with those of a new module.  Only
    contiguous groups are supported.  (num_batches_tracked, which evaluation does not use, is only checked.) *)
Fixpoint export_loop (m : ibn) (order : list nat) (last : option nat) (acc : list (R * R) * option (list (R * R)))
  : result (list (R * R) * option (list (R * R))) :=
  match order with
  | [] => Ok acc
  | s :: order' =>
    rbind (attr_of (ib_idx m) (py_str s)) (fun ci =>
    match ci with
    | CList _ => Err "NotImplementedError"%string
    | CSlice _ _ =>
      let bn := ib_bn m s in
      match bn_stats bn with
      | None => Err "AttributeError"%string
      | Some st =>
        rbind (scatter ci (fst acc) (concat (map (fun v => repeat v s) st))) (fun st' =>
        assert_ (match last with None => true | Some l => (l =? bn_batches bn)%nat end)
        (rbind (match snd acc, bn_params bn with
                | Some pa, Some pr => rbind (scatter ci pa (concat (map (fun v => repeat v s) pr))) (fun pa' => Ok (Some pa'))
                | pa, _ => Ok pa end) (fun pa' =>
         export_loop m order' (match last with None => Some (bn_batches bn) | Some l => Some l end) (st', pa'))))
      end
    end)
  end.
Definition inner_export (m : ibn) : result (list (R * R) * option (list (R * R))) :=
  if negb (ib_track m) then Err "ValueError"%string
  else export_loop m (first_seen Nat.eqb (ib_sizes m)) None
         (repeat (0, 1) (ft_chans (ib_in m)), if ib_affine m then Some (repeat (1, 0) (ft_chans (ib_in m))) else None).

(** ** GNormBatchNorm *)
(** gnorm.py:116-124: the positions of the irreps in a field *)
Fixpoint ir_offsets (p : nat) (l : list (irrep G)) : list (nat * irrep G) :=
  match l with [] => [] | i :: l' => (p, i) :: ir_offsets (p + ir_size i) l' end.
(** gnorm.py:118-119, 130: the channels of the trivial irreps *)
Definition trivials (r : rep G) : list nat := map fst (filter (fun pi => ir_trivial (snd pi)) (ir_offsets 0 (rp_irreps r))).
(** gnorm.py:114-126: aggregator and propagator: 1/size or 1 where channel a belongs to irrep number i *)
Definition belongs (r : rep G) (a i : nat) : bool :=
  match nth_error (ir_offsets 0 (rp_irreps r)) i with
  | Some (p, ir) => ((p <=? a) && (a <? p + ir_size ir))%nat%bool
  | None => false end.
Definition aggregator (r : rep G) (a i : nat) : R :=
  match nth_error (rp_irreps r) i with Some ir => if belongs r a i then 1 / INR (ir_size ir) else 0 | None => 0 end.
Definition propagator (r : rep G) (a i : nat) : R := if belongs r a i then 1 else 0.
(** einsum("ds,bcsxy->bcdxy", M, slice) on one field *)
Definition apply_mat (s : nat) (M : mat) (b : list chan) : list chan :=
  map (fun d => fun p => rsum s (fun e => M d e * nth e b (fun _ => 0) p)) (seq 0 s).
(** position of a in a list *)
Fixpoint pos_in (a : nat) (l : list nat) : option nat :=
  match l with [] => None | b :: l' => if (a =? b)%nat then Some O else option_map S (pos_in a l') end.
(** gnorm.py:285-315 [_compute_statistics] on one field, in the basis of the irreps *)
Definition gn_stats (n : nat) (r : rep G) (t : list chan) : list R * list R :=
  let means := map (fun i => rsum n (nth i t (fun _ => 0)) / INR n) (trivials r) in
  let sq := fun a => rsum n (fun p => nth a t (fun _ => 0) p * nth a t (fun _ => 0) p) / INR n in
  let vars := fun a => match pos_in a (trivials r) with Some q => sq a - nth q means 0 * nth q means 0 | None => sq a end in
  (means, map (fun i => rsum (rp_size r) (fun a => aggregator r a i * vars a) * bessel n) (seq 0 (length (rp_irreps r)))).
(** gnorm.py:331-345 [_shift] *)
Definition gn_shift (r : rep G) (v : list R) (t : list chan) : list chan :=
  map (fun ac => match pos_in (fst ac) (trivials r) with Some q => fun p => snd ac p + nth q v 0 | None => snd ac end) (enumerate t).
(** gnorm.py:317-329 [_scale] *)
Definition gn_scale (r : rep G) (v : list R) (t : list chan) : list chan :=
  map (fun ac => fun p => snd ac p * rsum (length (rp_irreps r)) (fun i => propagator r (fst ac) i * nth i v 0)) (enumerate t).
(** gnorm.py:244-253 on one field: scales, shift by the negative means, scale, shift by the bias; [stat]: means and variances,
    [par]: bias and weight *)
Definition gn_field (eps : R) (r : rep G) (stat : list R * list R) (par : option (list R * list R)) (t : list chan) : result (list chan) :=
  rbind (rmap (fun wv => if Rle_dec (snd wv + eps) 0 then Err "nan"%string else Ok (fst wv / sqrt (snd wv + eps)))
           (combine (match par with Some bw => snd bw | None => map (fun _ => 1) (snd stat) end) (snd stat))) (fun scales =>
  let normalized := gn_scale r scales (gn_shift r (map (fun v => -1 * v) (fst stat)) t) in
  Ok (match par with Some bw => gn_shift r (fst bw) normalized | None => normalized end)).

Record gbn : Type := MkGB {
  gb_in : ftype; gb_uniq : list (rep G);            (* in_type._unique_representations, in the order of iteration *)
  gb_idx : list (string * chan_set); gb_eps : R; gb_momentum : option R;
  gb_params : option (string -> list (list R * list R));   (* bias and weight of each field of a group *)
  gb_stats : string -> list (list R * list R);             (* running mean and variance *)
  gb_batches : nat }.
Definition gb_names (t : ftype) : list string := map rp_name (ft_reps t).
(** gnorm.py:110-150: the buffers of the representation r; its name must be usable as a buffer name *)
Definition gb_new {V} (t : ftype) (uniq : list (rep G)) (v : rep G -> V) (name : string) : list V :=
  match find (fun r => String.eqb (rp_name r) name) uniq with
  | Some r => repeat (v r) (nfields String.eqb (gb_names t) name)
  | None => []
  end.
(** gnorm.py:21-155 [__init__] *)
Definition gnorm_make (t : ftype) (uniq : list (rep G)) (eps : R) (momentum : option R) (affine : bool) : result gbn :=
  rbind (group_index (map (fun r => (rp_name r, rp_size r)) (ft_reps t))) (fun idx =>
  Ok (MkGB t uniq idx eps momentum
        (if affine then Some (gb_new t uniq (fun r => (map (fun _ => 0) (trivials r), map (fun _ => 1) (rp_irreps r)))) else None)
        (gb_new t uniq (fun r => (map (fun _ => 0) (trivials r), map (fun _ => 1) (rp_irreps r)))) 0)).
(** gnorm.py:203-262, one group; [cob_id r]: np.allclose(r.change_of_basis, np.eye(r.size)), when the changes of basis are
    skipped.  The two assertions (231-232) compare a buffer with itself. *)
Section Step.
Variable cob_id : rep G -> bool.
Definition gn_step (training : bool) (eps f : R) (n : nat) (r : rep G) (params : option (list (list R * list R)))
           (st : list (list R * list R)) (fm : list chan) : result (list (list R * list R) * list chan) :=
  if (training && (n =? 0)%nat)%bool then Err "nan"%string else
  rbind (view_fields (rp_size r) fm) (fun bl0 =>
  let bl := if cob_id r then bl0 else map (apply_mat (rp_size r) (rp_inv r)) bl0 in
  let batch := map (gn_stats n r) bl in
  rbind (if training
         then rbind (zip_eq st batch) (fun z => Ok (map (fun ob =>
                (map (fun v => ema f (fst v) (snd v)) (combine (fst (fst ob)) (fst (snd ob))),
                 map (fun v => ema f (fst v) (snd v)) (combine (snd (fst ob)) (snd (snd ob))))) z))
         else Ok st) (fun st' =>
  rbind (zip_eq (if training then batch else st) bl) (fun z =>
  rbind (match params with
         | Some pr => rbind (zip_eq pr z) (fun z' => rmap (fun v => gn_field eps r (fst (snd v)) (Some (fst v)) (snd (snd v))) z')
         | None => rmap (fun v => gn_field eps r (fst v) None (snd v)) z end) (fun out =>
  Ok (st', concat (if cob_id r then out else map (apply_mat (rp_size r) (rp_cob r)) out)))))).
(** gnorm.py:174-271 [forward] *)
Definition gnorm_forward (training : bool) (n : nat) (junk : nat -> chan) (m : gbn) (x : gtensor) : result (gtensor * gbn) :=
  assert_ (type_eqb (gt_type x) (gb_in m))
  (let batches := if training then S (gb_batches m) else gb_batches m in
   rbind (state_loop String.eqb (fun l => l) (gb_idx m) (fun name st fm =>
            match find (fun r => String.eqb (rp_name r) name) (gb_uniq m) with
            | Some r => gn_step training (gb_eps m) (factor (gb_momentum m) batches) n r
                          (match gb_params m with Some p => Some (p name) | None => None end) st fm
            | None => Err "KeyError"%string end)
          (gt_data x) (map rp_name (gb_uniq m)) (gb_stats m) (empty junk (length (gt_data x)))) (fun so =>
   rbind (mk_gt rp_size (snd so) (gb_in m)) (fun y =>
   Ok (y, MkGB (gb_in m) (gb_uniq m) (gb_idx m) (gb_eps m) (gb_momentum m) (gb_params m) (fst so) batches)))).
End Step.
(** gnorm.py:157-163 [reset_running_stats], 165-172 [reset_parameters] *)
Definition gnorm_reset (m : gbn) : gbn :=
  MkGB (gb_in m) (gb_uniq m) (gb_idx m) (gb_eps m) (gb_momentum m) (gb_params m)
       (gb_new (gb_in m) (gb_uniq m) (fun r => (map (fun _ => 0) (trivials r), map (fun _ => 1) (rp_irreps r)))) 0.
Definition gnorm_reset_parameters (m : gbn) : gbn :=
  MkGB (gb_in m) (gb_uniq m) (gb_idx m) (gb_eps m) (gb_momentum m)
       (match gb_params m with
        | Some _ => Some (gb_new (gb_in m) (gb_uniq m) (fun r => (map (fun _ => 0) (trivials r), map (fun _ => 1) (rp_irreps r))))
        | None => None end)
       (gb_new (gb_in m) (gb_uniq m) (fun r => (map (fun _ => 0) (trivials r), map (fun _ => 1) (rp_irreps r)))) 0.
End BatchNorm.
