(** Model of the conversion of a network to plain PyTorch modules: sequential_module.py [export] and the [export] of its modules that
    the other models do not contain (relu.py, elu.py, dropout/pointwise.py, gpool.py, identity_module.py).  A plain tensor is an image
    with its number of channels. *)
From Coq Require Import Reals ZArith String List Bool.
From Verif Require Import Base Model_Groups Model_Rep Model_FieldType Model_Utils Model_Modules Model_GSpace Model_Conv Model_ConvT Model_Fieldwise Model_BatchNorm Model_Pool
  Model_Upsample Model_NormMax Model_Dropout Model_Net.
Import ListNotations.
Open Scope R_scope.

(** The torch modules that [export] builds *)
Inductive tlayer : Type :=
| XConv (c : conv2d_mod)
| XConvT (c : convt2d_mod)
| XPool (c : tmod)
| XUpsample (c : tupsample)
| XReLU
| XELU (alpha : R)
| XDropout (p : R)
| XMaxPoolChannels (k : nat)
| XBatchNorm (eps : R) (stats : list (R * R)) (params : option (list (R * R)))
| XIdentity.

(** gpool.py:201-235 [MaxPoolChannels]: input.view(b, c / k, k, h, w).max(2) *)
Definition max_channels {B} (k n : nat) (x : arr (B -> vec)) : result (nat * arr (B -> vec)) :=
  if (k =? 0)%nat then Err "ZeroDivisionError"%string
  else assert_ (n mod k =? 0)%nat (Ok ((n / k)%nat, MkArr (a_h x) (a_w x) (fun i j b c => max_list (map (fun a => a_px x i j b (c * k + a)%nat) (seq 0 k))))).
(** The forward of the torch modules, in evaluation mode.  Convolutions raise when the number of channels is wrong. *)
Definition tlayer_forward {B} (bt : batch B) (m : tlayer) (z : nat * arr (B -> vec)) : result (nat * arr (B -> vec)) :=
  let n := fst z in let x := snd z in
  match m with
  | XConv c => if (n =? c2_in c)%nat then rbind (conv2d_forward c x) (fun y => Ok (c2_out c, y)) else Err "RuntimeError"%string
  | XConvT c => if (n =? ct_in c)%nat then rbind (convt2d_forward c x) (fun y => Ok (ct_out c, y)) else Err "RuntimeError"%string
  | XPool c => rbind (tmod_forward c x) (fun y => Ok (n, y))
  | XUpsample c => rbind (tupsample_forward c x) (fun y => Ok (n, y))
  | XReLU => Ok (n, MkArr (a_h x) (a_w x) (fun i j b c => Rmax 0 (a_px x i j b c)))
  | XELU alpha => Ok (n, MkArr (a_h x) (a_w x) (fun i j b c => let v := a_px x i j b c in if Rlt_dec 0 v then v else alpha * (exp v - 1)))
  | XDropout _ => Ok (n, x)
  | XMaxPoolChannels k => max_channels k n x
  | XBatchNorm eps st pr => rbind (bn2d_eval eps pr st (flat_channels bt n x)) (fun d => Ok (n, flat_image bt (a_h x) (a_w x) d))
  | XIdentity => Ok (n, x)
  end.
(** torch.nn.Sequential *)
Fixpoint tnet_forward {B} (bt : batch B) (l : list tlayer) (z : nat * arr (B -> vec)) : result (nat * arr (B -> vec)) :=
  match l with [] => Ok z | m :: l' => rbind (tlayer_forward bt m z) (tnet_forward bt l') end.

Section Export.
Context {G : Type}.
(** The modules of a network to be exported: ReLU and ELU have their own [export], which PointwiseNonLinearity (an [LPointwise] among the
    others) has not; IdentityModule *)
Inductive xlayer : Type :=
| MReLU (m : pointwise (GS := space G) (G := G))
| MELU (alpha : R) (m : pointwise (GS := space G) (G := G))
| MIdentity (t : ctype G)
| MOther (l : layer G).
Definition xlayer_in (l : xlayer) : ctype G := match l with MReLU m | MELU _ m => pw_in m | MIdentity t => t | MOther l => layer_in l end.
Definition xlayer_out (l : xlayer) : ctype G := match l with MReLU m | MELU _ m => pw_in m | MIdentity t => t | MOther l => layer_out l end.
(** identity_module.py:29-44 [forward] *)
Definition xlayer_forward {B} argmax junk junkn cob_id (bt : batch B) (l : xlayer) (x : arr (B -> vec) * ctype G) : result (arr (B -> vec) * ctype G) :=
  match l with
  | MReLU m | MELU _ m => layer_forward argmax junk junkn cob_id bt (LPointwise m) x
  | MIdentity t => assert_ (ft_eqb space_eqb rep_eqb (snd x) t) (Ok x)
  | MOther l => layer_forward argmax junk junkn cob_id bt l x
  end.
Definition xlayer_module {B} argmax junk junkn cob_id (bt : batch B) (l : xlayer) : emodule (ctype G) (arr (B -> vec) * ctype G) :=
  MkEM (xlayer_in l) (xlayer_out l) (xlayer_forward argmax junk junkn cob_id bt l).

(** gpool.py:159-196 [export] *)
Definition gpool_export (m : pool (GS := space G) (G := G)) : result tlayer :=
  match first_seen Nat.eqb (map rp_size (ft_reps (po_in m))) with
  | [] => Err "IndexError"%string
  | [s] => Ok (XMaxPoolChannels s)
  | _ => Err "NotImplementedError"%string
  end.
(** The [export] of a module, and the module in the state that [eval] leaves it in.  relu.py:106-114, elu.py:108-116,
    dropout/pointwise.py:81-89, identity_module.py:56-65; equivariant_module.py:120-135 for the classes without an [export] of their own *)
Definition xlayer_export (version : Z * Z) (l : xlayer) : result (tlayer * xlayer) :=
  match l with
  | MReLU m => Ok (XReLU, l)
  | MELU alpha m => Ok (XELU alpha, l)
  | MIdentity t => Ok (XIdentity, l)
  | MOther (LConv m st) => rbind (conv_export version m st) (fun r => Ok (XConv (fst r), MOther (LConv m (snd r))))
  | MOther (LConvT m st) => rbind (tconv_export m st) (fun r => Ok (XConvT (fst r), MOther (LConvT m (snd r))))
  | MOther (LMaxPool m) => rbind (maxpool_export m) (fun c => Ok (XPool c, l))
  | MOther (LMaxPoolA m) => rbind (amaxpool_export m) (fun c => Ok (XPool c, l))
  | MOther (LAdaptive m) => rbind (adpool_export m) (fun c => Ok (XPool c, l))
  | MOther (LUpsampling m) => rbind (upsampling_export m) (fun c => Ok (XUpsample c, l))
  | MOther (LGroupPool m) => rbind (gpool_export m) (fun c => Ok (c, l))
  | MOther (LInnerBatchNorm _ m) => rbind (inner_export m) (fun r => Ok (XBatchNorm (ib_eps m) (fst r) (snd r), MOther (LInnerBatchNorm false m)))
  | MOther (LPointwiseDropout m) => Ok (XDropout (pd_p m), l)
  | MOther _ => Err "NotImplementedError"%string
  end.
(** sequential_module.py:117-136 [export]: the modules one after the other; the names are those of the modules *)
Definition net_export (version : Z * Z) (ls : list xlayer) : result (list tlayer * list xlayer) :=
  rbind (rmap (xlayer_export version) ls) (fun l => Ok (map fst l, map snd l)).
End Export.
Arguments xlayer : clear implicits.
