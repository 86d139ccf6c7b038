(** Model of e2cnn/gspaces/: the spaces, their restriction and their action on arrays.
    Python objects that are dynamically typed in the source (group elements, subgroup ids) are sum
    types here; a call with an argument of the wrong kind is an error. *)
From Coq Require Import Reals ZArith String List Bool.
From Verif Require Import Base Model_Groups.
Import ListNotations.
Open Scope R_scope.

(** A fiber group object: CyclicGroup(N), DihedralGroup(N), SO2(F), O2(F), where F is the value of
    the attribute _maximum_frequency at the time of the call. *)
Inductive fgroup : Type :=
| GC (N : Z) | GD (N : Z) | GSO2 (F : Z) | GO2 (F : Z).

(** Group elements: int, float, (int, int), (int, float). *)
Inductive gelt : Type :=
| EI (e : Z) | ER (a : R) | EFI (f e : Z) | EFR (f : Z) (a : R).

(** Subgroup ids: int, (None|int, int), (None|float, int). *)
Inductive gid : Type :=
| IdInt (M : Z) | IdAxisInt (a : option Z) (M : Z) | IdAxisReal (a : option R) (M : Z).

(** [is_element]: cyclicgroup.py:95-99, dihedralgroup.py:100-105, so2group.py:98-99, o2group.py:116-120 *)
Definition fg_is_element (g : fgroup) (e : gelt) : bool :=
  match g, e with
  | GC N, EI k => cyc_is_element N k
  | GD N, EFI f k => dih_is_element N (f, k)
  | GSO2 _, ER _ => true
  | GO2 _, EFR f a => o2_is_element (f, a)
  | _, _ => false
  end.
(** [identity] *)
Definition fg_identity (g : fgroup) : gelt :=
  match g with GC _ => EI 0 | GD _ => EFI 0 0 | GSO2 _ => ER 0 | GO2 _ => EFR 0 0 end.
(** [combine] *)
Definition fg_combine (g : fgroup) (a b : gelt) : gelt :=
  match g, a, b with
  | GC N, EI x, EI y => EI (cyc_combine N x y)
  | GD N, EFI f x, EFI f' y => let e := dih_combine N (f, x) (f', y) in EFI (fst e) (snd e)
  | GSO2 _, ER x, ER y => ER (so2_combine x y)
  | GO2 _, EFR f x, EFR f' y => let e := o2_combine (f, x) (f', y) in EFR (fst e) (snd e)
  | _, _, _ => a
  end.
(** [order()] group.py:55-67: number of elements, or -1; [rotation_order] *)
Definition fg_order (g : fgroup) : Z :=
  match g with GC N => N | GD N => 2 * N | GSO2 _ => -1 | GO2 _ => -1 end%Z.
Definition fg_rotation_order (g : fgroup) : Z :=
  match g with GD N => N | GO2 _ => -1 | GC N => N | GSO2 _ => -1 end%Z.
(** [__eq__]: cyclicgroup.py:108-112, dihedralgroup.py:128-132, so2group.py:107-111, o2group.py:129-133 *)
Definition fg_eqb (a b : fgroup) : bool :=
  match a, b with
  | GC N, GC M => Z.eqb N M
  | GD N, GD M => Z.eqb N M
  | GSO2 F, GSO2 F' => Z.eqb F F'
  | GO2 F, GO2 F' => Z.eqb F F'
  | _, _ => false
  end.

(** wrappers turning the typed parent/child maps of Model_Groups into maps on [gelt] *)
Definition in_int (f : Z -> gelt) (e : gelt) : gelt := match e with EI z => f z | _ => e end.
Definition in_flipint (f : Z * Z -> gelt) (e : gelt) : gelt := match e with EFI a b => f (a, b) | _ => e end.
Definition in_real (f : R -> gelt) (e : gelt) : gelt := match e with ER z => f z | _ => e end.
Definition in_flipreal (f : Z * R -> gelt) (e : gelt) : gelt := match e with EFR a b => f (a, b) | _ => e end.
Definition mk_EFI (p : Z * Z) : gelt := EFI (fst p) (snd p).
Definition mk_EFR (p : Z * R) : gelt := EFR (fst p) (snd p).

Definition wrap_fin {G} (inj : G -> gelt) (prj : gelt -> option G) (s : fin_sub G)
  : fgroup * (gelt -> gelt) * (gelt -> option gelt) :=
  match s with
  | SubC M parent child => (GC M, in_int (fun z => inj (parent z)),
      fun e => match prj e with Some x => option_map EI (child x) | None => None end)
  | SubD M parent child => (GD M, in_flipint (fun z => inj (parent z)),
      fun e => match prj e with Some x => option_map mk_EFI (child x) | None => None end)
  end.

Definition prj_EI (e : gelt) : option Z := match e with EI z => Some z | _ => None end.
Definition prj_ER (e : gelt) : option R := match e with ER z => Some z | _ => None end.
Definition prj_EFI (e : gelt) : option (Z * Z) := match e with EFI a b => Some (a, b) | _ => None end.
Definition prj_EFR (e : gelt) : option (Z * R) := match e with EFR a b => Some (a, b) | _ => None end.

(** [subgroup(id)] of the four groups (Model_Groups).  Simplification: the frequency limit of an
    SO2/O2 subgroup object is the current one of the parent; that the object is memoised is modelled
    in Model_Hist.v. *)
Definition fg_subgroup (g : fgroup) (id : gid) : result (fgroup * (gelt -> gelt) * (gelt -> option gelt)) :=
  match g, id with
  | GC N, IdInt M =>
      rbind (cyc_subgroup N M) (fun '(M', p, c) => Ok (wrap_fin EI prj_EI (SubC M' p c)))
  | GD N, IdAxisInt a M =>
      rbind (dih_subgroup N (a, M)) (fun s => Ok (wrap_fin mk_EFI prj_EFI s))
  | GSO2 F, IdInt M => rbind (so2_subgroup M) (fun s => Ok (wrap_fin ER prj_ER s))
  | GO2 F, IdAxisReal a M =>
      rbind (o2_subgroup (a, M)) (fun s =>
      match s with
      | SubO2 p c => Ok (GO2 F, in_flipreal (fun z => mk_EFR (p z)),
            fun e => match prj_EFR e with Some x => option_map mk_EFR (c x) | None => None end)
      | SubSO2 p c => Ok (GSO2 F, in_real (fun z => mk_EFR (p z)),
            fun e => match prj_EFR e with Some x => option_map ER (c x) | None => None end)
      | SubFin s => Ok (wrap_fin mk_EFR prj_EFR s)
      end)
  | _, _ => Err "AssertionError"
  end.

(** A gspace object: its class, fiber group and axis.
    TrivialOnR2 (trivial_on_r2.py), Flip2dOnR2 (flip2d_on_r2.py), Rot2dOnR2 (rot2d_on_r2.py),
    FlipRot2dOnR2 (fliprot2d_on_r2.py). *)
Inductive gspace : Type :=
| SpTrivial (g : fgroup)
| SpFlip (g : fgroup) (axis : R)
| SpRot (g : fgroup)
| SpFlipRot (g : fgroup) (axis : R).

(** gspace.py:29 [self.fibergroup] *)
Definition sp_group (s : gspace) : fgroup :=
  match s with SpTrivial g => g | SpFlip g _ => g | SpRot g => g | SpFlipRot g _ => g end.

(** Constructors called with a [fibergroup]. *)
(** trivial_on_r2.py:25-46 *)
Definition trivial_on_r2 (g : fgroup) : result gspace :=
  match g with GC N => assert_ (Z.eqb N 1) (Ok (SpTrivial g)) | _ => Err "AssertionError" end.
(** flip2d_on_r2.py:27-58 *)
Definition flip2d_on_r2 (axis : R) (g : fgroup) : result gspace :=
  match g with GC N => assert_ (Z.eqb N 2) (Ok (SpFlip g axis)) | _ => Err "AssertionError" end.
(** rot2d_on_r2.py:29-73: N = fibergroup.order(); N > 1 or N == -1 *)
Definition rot2d_on_r2 (g : fgroup) : result gspace :=
  match g with
  | GC _ | GSO2 _ =>
      let N := fg_order g in
      if (1 <? N)%Z then Ok (SpRot g)
      else if (N =? -1)%Z then Ok (SpRot g)
      else Err "ValueError"
  | _ => Err "AssertionError"
  end.
(** fliprot2d_on_r2.py:31-92: N = fibergroup.rotation_order *)
Definition fliprot2d_on_r2 (g : fgroup) (axis : R) : result gspace :=
  match g with
  | GD _ | GO2 _ =>
      let N := fg_rotation_order g in
      if (1 <? N)%Z then Ok (SpFlipRot g axis)
      else if (N =? -1)%Z then Ok (SpFlipRot g axis)
      else Err "ValueError"
  | _ => Err "AssertionError"
  end.

(** id[0] as a float, when it is not None *)
Definition id_axis (id : gid) : option R :=
  match id with IdInt _ => None | IdAxisInt a _ => option_map IZR a | IdAxisReal a _ => a end.
Definition id_order (id : gid) : Z :=
  match id with IdInt M => M | IdAxisInt _ M => M | IdAxisReal _ M => M end.

(** fliprot2d_on_r2.py:143-153: the axis of the restricted space *)
Definition fliprot_new_axis (g : fgroup) (axis a : R) : R :=
  let rotation := if (1 <? fg_order g)%Z then a * 2 * PI / IZR (fg_rotation_order g) else a in
  rmod (axis + (1/2) * rotation) (2 * PI).

(** [restrict(id)]: trivial_on_r2.py:49-73, flip2d_on_r2.py:60-85, rot2d_on_r2.py:75-106,
    fliprot2d_on_r2.py:94-166 *)
Definition sp_restrict (s : gspace) (id : gid) : result (gspace * (gelt -> gelt) * (gelt -> option gelt)) :=
  rbind (fg_subgroup (sp_group s) id) (fun '(sub, mapping, child) =>
  let ret := fun r => rbind r (fun s' => Ok (s', mapping, child)) in
  match s with
  | SpTrivial _ => ret (trivial_on_r2 sub)
  | SpFlip _ axis =>
      if (id_order id =? 1)%Z then ret (trivial_on_r2 sub) else ret (flip2d_on_r2 axis sub)
  | SpRot _ =>
      if (1 <? id_order id)%Z then ret (rot2d_on_r2 sub)
      else if (id_order id =? 1)%Z then ret (trivial_on_r2 sub)
      else Err "ValueError"
  | SpFlipRot g axis =>
      match id_axis id with
      | None =>
          if (id_order id =? 1)%Z then ret (trivial_on_r2 sub)
          else if ((1 <? id_order id) || (id_order id =? -1))%Z then ret (rot2d_on_r2 sub)
          else Err "ValueError"
      | Some a =>
          let new_axis := fliprot_new_axis g axis a in
          if (id_order id =? 1)%Z then ret (flip2d_on_r2 new_axis sub)
          else ret (fliprot2d_on_r2 sub new_axis)
      end
  end).

(** * Action on arrays *)

(** An array of spatial shape (h, w); an entry holds everything indexed by the leading axes. *)
Record arr (A : Type) : Type := MkArr { a_h : nat; a_w : nat; a_px : nat -> nat -> A }.
Arguments MkArr {A} _ _ _.
Arguments a_h {A} _.
Arguments a_w {A} _.
Arguments a_px {A} _ _ _.

(** numpy [x[..., ::-1, :]] (also [np.flip(x, -2)]) *)
Definition flip_rows {A} (x : arr A) : arr A :=
  MkArr (a_h x) (a_w x) (fun i j => a_px x (a_h x - 1 - i)%nat j).
(** numpy [np.flip(x, -1)] *)
Definition flip_cols {A} (x : arr A) : arr A :=
  MkArr (a_h x) (a_w x) (fun i j => a_px x i (a_w x - 1 - j)%nat).
(** numpy [np.swapaxes(x, -2, -1)] *)
Definition transpose {A} (x : arr A) : arr A :=
  MkArr (a_w x) (a_h x) (fun i j => a_px x j i).
(** numpy [np.rot90(x, k, axes=(-2, -1))] as documented and implemented: k %= 4, then
    k=0: x; k=2: flip both axes; k=1: transpose(flip(x, -1)); k=3: flip(transpose(x), -1) *)
Definition rot90 {A} (x : arr A) (k : Z) : arr A :=
  let k := (k mod 4)%Z in
  if Z.eqb k 0 then x
  else if Z.eqb k 2 then flip_cols (flip_rows x)
  else if Z.eqb k 1 then transpose (flip_cols x)
  else flip_cols (transpose x).

(** Python float.is_integer *)
Definition is_integer (x : R) : bool := if Req_EM_T x (IZR (Int_part x)) then true else false.

Section Action.
(** scipy.ndimage.rotate(x, angle, (-2,-1), reshape=False, order=2): not modelled, except that it uses
    the angle only through its cosine and sine. *)
Variable interpolate : forall A : Type, R -> R -> arr A -> arr A.

(** r2/utils.py:7-15 [rotate_array] *)
Definition rotate_array {A} (x : arr A) (angle : R) : arr A :=
  let k := 2 * angle / PI in
  if is_integer k then rot90 x (Int_part k)
  else interpolate A (cos angle) (sin angle) x.

(** [_basespace_action(input, element)]: trivial_on_r2.py:169-172, flip2d_on_r2.py:183-195,
    rot2d_on_r2.py:206-219, fliprot2d_on_r2.py:271-294.  Copies are dropped. *)
Definition basespace_action {A} (s : gspace) (x : arr A) (e : gelt) : result (arr A) :=
  assert_ (fg_is_element (sp_group s) e)
  (match s, e with
   | SpTrivial _, _ => Ok x
   | SpFlip _ axis, EI f =>
       if Z.eqb f 0 then Ok x
       else let out := flip_rows x in
            Ok (if Req_EM_T axis 0 then out else rotate_array out (2 * axis))
   | SpRot g, EI k => Ok (rotate_array x (if (1 <? fg_order g)%Z then IZR k * 2 * PI / IZR (fg_order g) else IZR k))
   | SpRot g, ER a => Ok (rotate_array x (if (1 <? fg_order g)%Z then a * 2 * PI / IZR (fg_order g) else a))
   | SpFlipRot g axis, EFI f _ | SpFlipRot g axis, EFR f _ =>
       let e1 := match e with EFI _ k => IZR k | EFR _ a => a | _ => 0 end in
       let rotation := if (1 <? fg_order g)%Z then e1 * 2 * PI / IZR (fg_rotation_order g) else e1 in
       let out := if Z.eqb f 0 then x else flip_rows x in
       let rotation := if Z.eqb f 0 then rotation else rotation + 2 * axis in
       Ok (if Req_EM_T rotation 0 then out else rotate_array out rotation)
   | _, _ => Err "TypeError"
   end).

(** gspace.py:88-134 [featurefield_action(input, repr, element)]: einsum "oi,bi...->bo..." at every
    pixel, then the basespace action.  The representation is given by its group, size and matrices;
    a pixel holds, for each batch index b, the vector of channels. *)
Definition featurefield_action {B} (s : gspace) (rg : fgroup) (n : nat) (rho : gelt -> mat)
    (x : arr (B -> vec)) (e : gelt) : result (arr (B -> vec)) :=
  assert_ (fg_eqb rg (sp_group s))
    (basespace_action s (MkArr (a_h x) (a_w x) (fun i j b => mvec n (rho e) (a_px x i j b))) e).
End Action.

(** * Comparison *)
(** [__eq__]: trivial_on_r2.py:174-178, flip2d_on_r2.py:197-201, rot2d_on_r2.py:221-225,
    fliprot2d_on_r2.py:296-300 *)
Definition sp_eqb (a b : gspace) : bool :=
  match a, b with
  | SpTrivial g, SpTrivial g' => fg_eqb g g'
  | SpFlip g _, SpFlip g' _ => fg_eqb g g'
  | SpRot g, SpRot g' => fg_eqb g g'
  | SpFlipRot g _, SpFlipRot g' _ => fg_eqb g g'
  | _, _ => false
  end.
(** [name]: "Trivial", "Flips", "{N}-Rotations", "Continuous-Rotations",
    "Flip_{N}-Rotations(f={axis:.5f})", "Flip_Continuous-Rotations(f={axis:.5f})"; a name is modelled
    by its variable parts, the axis rounded to 5 decimals being an integer number of 1e-5. *)
Inductive sp_name_t : Type := NmTrivial | NmFlips | NmRot (N : Z) | NmFlipRot (N : Z) (axis5 : Z).
Definition sp_name (s : gspace) : sp_name_t :=
  match s with
  | SpTrivial _ => NmTrivial
  | SpFlip _ _ => NmFlips
  | SpRot g => NmRot (fg_order g)
  | SpFlipRot g axis => NmFlipRot (fg_rotation_order g) (py_round (axis * 100000))
  end.
(** [__hash__] is hash(self.name): trivial_on_r2.py:180, flip2d_on_r2.py:203, rot2d_on_r2.py:227,
    fliprot2d_on_r2.py:302.  [hash] is Python's string hash. *)
Definition sp_hash {T} (hash : sp_name_t -> T) (s : gspace) : T := hash (sp_name s).
