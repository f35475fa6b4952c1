(** * Floating point arithmetic: laws

    The laws of IEEE 754 arithmetic that the statements of Prop_Float.v rest
    on.  [Float_IEEE.v] proves them for the 64 bit format. *)
From Coq Require Import List Bool Permutation.
From Verif Require Import Float_Model.
Import ListNotations.

Section Spec.
  Context {F : Type}.
  Variable K : Arith F.
  Local Notation "0" := (a0 K).

  Definition is_nan (x : F) : Prop := aeq K x x = false.
  (** Not above zero, not below zero; nan is neither. *)
  Definition not_pos (x : F) : Prop := alt K 0 x = false.
  Definition not_neg (x : F) : Prop := alt K x 0 = false.

  (** Summation in any order, with any grouping. *)
  Inductive summed : list F -> F -> Prop :=
  | summed_nil : summed [] 0
  | summed_one : forall x, summed [x] x
  | summed_app : forall l1 l2 a b, summed l1 a -> summed l2 b -> summed (l1 ++ l2) (aadd K a b)
  | summed_perm : forall l l' a, Permutation l l' -> summed l a -> summed l' a.

  (** [fin]: neither nan nor infinite. *)
  Record laws (fin : F -> Prop) : Prop := mkLaws {
    l_fin_zero : fin 0;
    l_fin_dec : forall x, fin x \/ ~ fin x;
    l_fin_nan : forall x, fin x -> ~ is_nan x;
    l_lt_nan : forall x y, alt K x y = true -> ~ is_nan x /\ ~ is_nan y;
    l_le_nan : forall x y, ale K x y = true -> ~ is_nan x /\ ~ is_nan y;
    l_eq_nan : forall x y, aeq K x y = true -> ~ is_nan x /\ ~ is_nan y;
    (* nan spreads *)
    l_add_nan : forall x y, is_nan x \/ is_nan y -> is_nan (aadd K x y);
    l_sub_nan : forall x y, is_nan x \/ is_nan y -> is_nan (asub K x y);
    l_mul_nan : forall x y, is_nan x \/ is_nan y -> is_nan (amul K x y);
    l_div_nan : forall x y, is_nan x \/ is_nan y -> is_nan (adiv K x y);
    l_opp_nan : forall x, is_nan x -> is_nan (aopp K x);
    l_abs_nan : forall x, is_nan x -> is_nan (aabs K x);
    l_sqrt_nan : forall x, is_nan x -> is_nan (asqrt K x);
    (* infinity gives infinity or nan *)
    l_add_fin : forall x y, fin (aadd K x y) -> fin x /\ fin y;
    l_sub_fin : forall x y, fin (asub K x y) -> fin x /\ fin y;
    l_mul_fin : forall x y, fin (amul K x y) -> fin x /\ fin y;
    l_opp_fin : forall x, fin (aopp K x) <-> fin x;
    l_zero_times : forall x, ~ fin x -> is_nan (amul K 0 x);
    l_inf_ratio : forall x y, ~ fin x -> ~ fin y -> is_nan (adiv K x y);
    l_abs_small : forall x y, alt K (aabs K x) y = true -> fin x;
    (* order *)
    l_lt_le : forall x y, alt K x y = true -> ale K x y = true;
    l_lt_irrefl : forall x, alt K x x = false;
    l_total : forall x y, ~ is_nan x -> ~ is_nan y -> alt K x y = false -> ale K y x = true;
    l_le_lt : forall x y z, ale K x y = true -> alt K y z = true -> alt K x z = true;
    (* signs *)
    l_zero_lt : forall x y, aeq K x 0 = true -> aeq K y 0 = true -> alt K x y = false;
    l_zero_le : forall x, aeq K x 0 = true -> ale K 0 x = true;
    l_zero_eq : aeq K 0 0 = true;
    l_zero_add : forall x y, aeq K x 0 = true -> aeq K y 0 = true -> aeq K (aadd K x y) 0 = true;
    l_zero_sub : forall x y, aeq K x 0 = true -> aeq K y 0 = true -> aeq K (asub K x y) 0 = true;
    l_zero_mul : forall x y, aeq K x 0 = true \/ aeq K y 0 = true ->
      aeq K (amul K x y) 0 = true \/ is_nan (amul K x y);
    l_zero_opp : forall x, aeq K x 0 = true -> aeq K (aopp K x) 0 = true;
    l_zero_fin : forall x, fin x -> ~ is_nan (amul K 0 x);
    l_opp_lt : forall x y, alt K x (aopp K y) = alt K y (aopp K x);
    l_zero_flow : forall x y, aeq K x 0 = true -> alt K 0 y = true -> ale K x (aopp K y) = false;
    l_opp_pos : forall x, not_pos x -> not_neg (aopp K x);
    l_opp_neg : forall x, not_neg x -> not_pos (aopp K x);
    l_add_sign : forall x y, not_pos x -> not_pos y -> not_pos (aadd K x y);
    l_mul_sign : forall x y, not_pos x -> not_neg y -> not_pos (amul K x y);
    l_div_sign : forall x y, not_neg x -> not_neg y -> aeq K y 0 = false -> not_neg (adiv K x y);
    l_share : forall x n, not_pos x -> not_pos (adiv K x (anat K n));
    (* reductions *)
    l_sum : forall l, summed l (asum K l);
    l_max_nan : forall l x, In x l -> is_nan x -> is_nan (amax K l);
    l_max_some : forall l, (forall x, In x l -> ~ is_nan x) -> ~ is_nan (amax K l);
    l_max_above : forall l x, In x l -> ~ is_nan (amax K l) -> ale K x (amax K l) = true }.
End Spec.

(** ** Vocabulary of the statements *)
Section Words.
  Context {F P : Type}.
  Variable K : Arith F.
  Variable fin : F -> Prop.
  Variable c : fcfg (F:=F) (P:=P).
  (** Finite at every grid point of the substrate. *)
  Definition pts_fin (phi : P -> F) : Prop := forall p, In p (k_pts c) -> fin (phi p).
  (** The substrate returns finite displacements only for finite forces. *)
  Definition spreads : Prop := forall f, pts_fin (k_disp c f) -> pts_fin f.
  (** One undefined force makes all displacements undefined. *)
  Definition spreads_nan : Prop := forall f p q, In p (k_pts c) -> In q (k_pts c) ->
    is_nan K (f p) -> is_nan K (k_disp c f q).
  (** A hardness, if there is one, is positive. *)
  Definition hard_pos : Prop := forall H, k_hard c = Some H -> alt K (a0 K) H = true.
  (** A load, if one is prescribed, is not negative. *)
  Definition load_pos : Prop := forall Fx, k_ext c = Some Fx -> not_neg K Fx.
  (** Grid points of the topography that carry a height. *)
  Definition surface (p : P) : Prop :=
    In p (k_pts c) /\ k_slice c p = true /\ k_masked c p = false.
  (** A substrate that multiplies by a matrix, row by row, in any order of
      summation. *)
  Definition by_matrix (mat : P -> P -> F) : Prop :=
    forall f p, In p (k_pts c) -> summed K (map (fun q => amul K (mat p q) (f q)) (k_pts c)) (k_disp c f p).
End Words.
