(** What the documentation says about the sizes of the arrays passed to a map
    (ConditionalMapBase.h, ParameterizedFunctionBase.h): the kinds of maps, how many inputs,
    outputs and coefficients each has, and which maps its constructor accepts. This file does
    not use the model. *)
From Coq Require Import List Arith Bool Lia.
Import ListNotations.

(** A map: a monotone component with [d] inputs and [nc] coefficients, with continuous or
    discretised diagonal derivatives; an affine map with a matrix ([rows], [cols]), an offset, or
    both; an identity map; a triangular map of blocks; a composition of layers; a component whose
    first inputs are replaced by [so] summaries of [si] inputs. *)
Inductive tree : Type :=
| TComp (d nc : nat) (cont : bool)
| TAffine (A : option (nat * nat)) (b : option nat)
| TIdent (i o : nat)
| TTri (l : list tree)
| TComposed (l : list tree)
| TSumm (si so : nat) (c : tree).

(** Number of outputs, of inputs and of coefficients. *)
Fixpoint dout (m : tree) : nat :=
  match m with
  | TComp _ _ _ => 1
  | TAffine (Some (r, _)) _ => r
  | TAffine None (Some k) => k
  | TAffine None None => 0
  | TIdent _ o => o
  | TTri l => list_sum (map dout l)
  | TComposed l => match l with [] => 0 | m :: _ => dout m end
  | TSumm _ _ c => dout c
  end.
Fixpoint din (m : tree) : nat :=
  match m with
  | TComp d _ _ => d
  | TAffine (Some (_, c)) _ => c
  | TAffine None (Some k) => k
  | TAffine None None => 0
  | TIdent i _ => i
  | TTri l => last (map din l) 0
  | TComposed l => match l with [] => 0 | m :: _ => din m end
  | TSumm si _ _ => si + 1
  end.
Fixpoint ncoef (m : tree) : nat :=
  match m with
  | TComp _ nc _ => nc
  | TAffine _ _ | TIdent _ _ => 0
  | TTri l | TComposed l => list_sum (map ncoef l)
  | TSumm _ _ c => ncoef c
  end.

(** The blocks of a triangular map: each has all the inputs of the one before it and one new
    input for each of its outputs. *)
Fixpoint staircase (before : nat) (l : list tree) : Prop :=
  match l with
  | [] => True
  | m :: l => din m = before + dout m /\ staircase (din m) l
  end.

(** The maps the constructors accept. *)
Inductive built : tree -> Prop :=
| b_comp : forall d nc cont, 1 <= d -> built (TComp d nc cont)
| b_matrix : forall r c, 1 <= r <= c -> built (TAffine (Some (r, c)) None)
| b_affine : forall r c, 1 <= r <= c -> built (TAffine (Some (r, c)) (Some r))
| b_shift : forall k, 1 <= k -> built (TAffine None (Some k))
| b_ident : forall i o, 1 <= o <= i -> built (TIdent i o)
| b_tri : forall m l, Forall built (m :: l) -> dout m <= din m -> staircase (din m) l -> built (TTri (m :: l))
| b_composed : forall m l, Forall built (m :: l) ->
    Forall (fun k => din k = din m /\ dout k = din m) (m :: l) -> built (TComposed (m :: l))
| b_summ : forall si so c, built c -> 1 <= so -> dout c = 1 -> din c = so + 1 -> built (TSumm si so c).

(** Every component uses continuous derivatives. *)
Fixpoint continuous (m : tree) : bool :=
  match m with
  | TComp _ _ cont => cont
  | TAffine _ _ | TIdent _ _ => true
  | TTri l | TComposed l => forallb continuous l
  | TSumm _ _ c => continuous c
  end.

(** A component with one input, alone or as a layer of a composition. *)
Fixpoint one_input (m : tree) : bool :=
  match m with
  | TComp d _ _ => d =? 1
  | TComposed l => existsb one_input l
  | _ => false
  end.

(** Every component inside a composition uses continuous derivatives. *)
Fixpoint continuous_layers (m : tree) : bool :=
  match m with
  | TComp _ _ _ | TAffine _ _ | TIdent _ _ => true
  | TTri l => forallb continuous_layers l
  | TComposed l => forallb continuous l
  | TSumm _ _ c => continuous_layers c
  end.
