(** Specification vocabulary for the caches: what a layer is without any history, and the programs whose layers do not disturb one
    another. *)
From Coq Require Import Reals ZArith String List Bool.
From Verif Require Import Base Model_Groups Model_Rep Model_FieldType Model_GSpace Model_Conv Spec_Conv Model_Diffops2 Model_R2Diffop Model_Cache.
Import ListNotations.

(** the layer constructed from its arguments alone *)
Definition fresh {G} (l : layer G) : result (r2conv G) :=
  match l with
  | LConv tin tout k padding stride dil mode groups bias sigma fco rings mo bf _ =>
      r2conv_make tin tout k padding stride dil mode groups bias sigma fco rings mo bf
  | LDiffop tin tout ks mord acc padding stride dil mode groups bias bf mo mp smoothing angle_offset _ =>
      r2diffop_make tin tout ks mord acc padding stride dil mode groups bias bf mo mp smoothing angle_offset
  end.

Definition layer_out {G} (l : layer G) : ctype G :=
  match l with LConv _ tout _ _ _ _ _ _ _ _ _ _ _ _ _ => tout | LDiffop _ tout _ _ _ _ _ _ _ _ _ _ _ _ _ _ _ => tout end.
Definition layer_reps {G} (l : layer G) : list (rep G) := ft_reps (layer_in l) ++ ft_reps (layer_out l).
Definition layer_space {G} (l : layer G) : space G := ft_gs (layer_in l).
(** (smoothing, angle_offset) and maximum_power of an R2Diffop *)
Definition layer_disc {G} (l : layer G) : option (option R * option R) :=
  match l with LConv _ _ _ _ _ _ _ _ _ _ _ _ _ _ _ => None | LDiffop _ _ _ _ _ _ _ _ _ _ _ _ _ _ s a _ => Some (s, a) end.
Definition layer_power {G} (l : layer G) : option (option Z) :=
  match l with LConv _ _ _ _ _ _ _ _ _ _ _ _ _ _ _ => None | LDiffop _ _ _ _ _ _ _ _ _ _ _ _ _ mp _ _ _ => Some mp end.

(** the same group: cyclic or dihedral of the same order, or SO(2), or O(2) (whatever the largest frequency it was asked for) *)
Definition one_group (g g' : fgroup) : Prop :=
  match g, g' with GC N, GC M => N = M | GD N, GD M => N = M | GSO2 _, GSO2 _ => True | GO2 _, GO2 _ => True | _, _ => False end.

(** A program is a list of layers to construct, each with the number of the gspace object of its input type. *)
Record undisturbed {G} (prog : list (nat * layer G)) : Prop := {
  (* the spaces are those of the library *)
  un_space : forall o l, In (o, l) prog -> exists isrep, planar_space G (layer_space l) isrep;
  (* one object is one space *)
  un_object : forall o l l', In (o, l) prog -> In (o, l') prog -> layer_space l = layer_space l';
  (* the names of the representations of a group identify them *)
  un_names : forall o l o' l' r r', In (o, l) prog -> In (o', l') prog ->
    one_group (sp_group (sp_obj (layer_space l))) (sp_group (sp_obj (layer_space l'))) ->
    In r (layer_reps l) -> In r' (layer_reps l') -> rp_name r = rp_name r' -> r = r';
  (* two gspaces with the same group D_N, or with O(2), have the same mirror axis *)
  un_axis : forall o l o' l' g g' a a', In (o, l) prog -> In (o', l') prog ->
    sp_obj (layer_space l) = SpFlipRot g a -> sp_obj (layer_space l') = SpFlipRot g' a' -> one_group g g' -> a = a';
  (* the R2Diffop layers use the same smoothing and angle_offset, and those of one gspace object the same maximum_power *)
  un_disc : forall o l o' l' d d', In (o, l) prog -> In (o', l') prog -> layer_disc l = Some d -> layer_disc l' = Some d' -> d = d';
  un_power : forall o l l' m m', In (o, l) prog -> In (o, l') prog -> layer_power l = Some m -> layer_power l' = Some m' -> m = m' }.
