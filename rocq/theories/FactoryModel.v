(** Model of MapFactory (repo: MParT/MapFactory.h, src/MapFactory.cpp, src/MapFactoryImpl1-18.cpp):
    CreateComponent, CreateTriangular, CreateSingleEntryMap and CreateExpansion in the host memory
    space. The final SetCoeffs(zeros) of each routine is left out here: coefficients are arguments of
    the routines of a map, and their storage is in HeapModel.v. An unsigned int is a [nat]; where the
    code can wrap around this is written out. *)
From Coq Require Import Reals.
From Verif Require Import Base SpecFactory SpecQuad FixedSetModel PolyModel BijModel ExpansionModel QuadModel RootModel MonoModel MapsModel LeafModel.
Local Open Scope R_scope.

(** a - b and a mod 2^32 for unsigned int. *)
Definition u32 (a : N) : nat := N.to_nat (a mod 4294967296).
Definition u32_sub (a b : nat) : nat := u32 (N.of_nat a + 4294967296 - N.of_nat b).

(** * CreateComponent *)

(** repo: LinearizedBasis.h:37-146 with bounds that may be infinite: x < -inf and x > inf are false,
    so that bound is never used; [x-1] (resp. [x+1]) stands for it at the point [x]. *)
Definition lower (lb : option R) (x : R) : R := match lb with Some l => l | None => x - 1 end.
Definition upper (ub : option R) (x : R) : R := match ub with Some u => u | None => x + 1 end.
Definition lin_basis (B : basis) (lb ub : option R) : basis :=
  MkBasis (fun out n x => lin_all B (lower lb x) (upper ub x) out n x)
          (fun vals derivs n x => lin_derivs B (lower lb x) (upper ub x) vals derivs n x)
          (fun vals derivs derivs2 n x => lin_second B (lower lb x) (upper ub x) vals derivs derivs2 n x)
          (fun n x => lin_eval B (lower lb x) (upper ub x) n x)
          (fun n x => lin_deriv B (lower lb x) (upper ub x) n x)
          (fun n x => lin_deriv2 B (lower lb x) (upper ub x) n x).

(** Fuel of the adaptive quadrature loops. *)
Section Factory.
Variable fuel : nat.

(** repo: Quadrature.h:360-364, ClenshawCurtisQuadrature(numPts, 1): the rule is computed into newly
    allocated arrays. *)
Definition make_cc (n : nat) : outcome quad_rule :=
  do r <- GetRule n (repeat 0 n) (repeat 0 n); Ok (qr_clenshaw (snd r) (fst r)).
(** The arguments (quadMaxSub, 1, nullptr, quadAbsTol, quadRelTol, QuadError::First, quadMinSub). *)
Definition make_quad (o : options) : quad := MkQuad 1 (o_maxSub o) (o_minSub o) (o_absTol o) (o_relTol o) First.
Definition make_as (o : options) : quad_rule := qr_simpson (make_quad o) fuel.
(** "unsigned int level = std::log2(opts.quadPts-2)": quadPts-2 wraps around below 2, and
    converting log2(0) = -inf to an unsigned is undefined. *)
Definition acc_level (n : nat) : outcome nat :=
  let m := u32_sub n 2 in if (m =? 0)%nat then UB else Ok (Nat.log2 m).
(** The constructor of the rule asserts 2^level+1 >= 3 ([Throw]; see [ac_make]). *)
Definition make_acc (o : options) : outcome quad_rule :=
  do level <- acc_level (o_pts o); do _ <- ac_make level; Ok (qr_adaptive_cc (make_quad o) level fuel).

(** "MultivariateExpansionWorker expansion(mset, basis1d)" and
    "make_shared<MonotoneComponent<...>>(expansion, quad, opts.contDeriv, opts.nugget)". *)
Definition make_component (f : fset) (B : basis) (G : posfunc) (Q : quad_rule) (o : options) : outcome component :=
  do w <- w_make f B; Ok (MkMC w G Q (o_cont o) (o_nugget o)).
Definition builder : Type := posfunc -> fset -> options -> outcome component.
Definition key : Type := (basis_type * bool * pos_type * quad_type)%type.

(** repo: MapFactoryImpl1.cpp:16-31. *)
Definition Impl_Phys_ACC : builder := fun G f o =>
  do Q <- make_acc o;
  make_component f (poly_basis PhysicistHermite (o_norm o)) G Q o.

(** repo: MapFactoryImpl2.cpp:14-27. *)
Definition Impl_Phys_CC : builder := fun G f o =>
  do Q <- make_cc (o_pts o);
  make_component f (poly_basis PhysicistHermite (o_norm o)) G Q o.

(** repo: MapFactoryImpl3.cpp:13-26. *)
Definition Impl_Phys_AS : builder := fun G f o =>
  do Q <- Ok (make_as o);
  make_component f (poly_basis PhysicistHermite (o_norm o)) G Q o.

(** repo: MapFactoryImpl4.cpp:13-28. *)
Definition Impl_Prob_ACC : builder := fun G f o =>
  do Q <- make_acc o;
  make_component f (poly_basis ProbabilistHermite (o_norm o)) G Q o.

(** repo: MapFactoryImpl5.cpp:13-26. *)
Definition Impl_Prob_CC : builder := fun G f o =>
  do Q <- make_cc (o_pts o);
  make_component f (poly_basis ProbabilistHermite (o_norm o)) G Q o.

(** repo: MapFactoryImpl6.cpp:13-26. *)
Definition Impl_Prob_AS : builder := fun G f o =>
  do Q <- Ok (make_as o);
  make_component f (poly_basis ProbabilistHermite (o_norm o)) G Q o.

(** repo: MapFactoryImpl7.cpp:13-28. *)
Definition Impl_HF_ACC : builder := fun G f o =>
  do Q <- make_acc o;
  make_component f (hermite_functions) G Q o.

(** repo: MapFactoryImpl8.cpp:13-26. *)
Definition Impl_HF_CC : builder := fun G f o =>
  do Q <- make_cc (o_pts o);
  make_component f (hermite_functions) G Q o.

(** repo: MapFactoryImpl9.cpp:13-26. *)
Definition Impl_HF_AS : builder := fun G f o =>
  do Q <- Ok (make_as o);
  make_component f (hermite_functions) G Q o.

(** repo: MapFactoryImpl10.cpp:16-31. *)
Definition Impl_LinPhys_ACC : builder := fun G f o =>
  do Q <- make_acc o;
  make_component f (lin_basis (poly_basis PhysicistHermite (o_norm o)) (o_LB o) (o_UB o)) G Q o.

(** repo: MapFactoryImpl11.cpp:16-29. *)
Definition Impl_LinPhys_CC : builder := fun G f o =>
  do Q <- make_cc (o_pts o);
  make_component f (lin_basis (poly_basis PhysicistHermite (o_norm o)) (o_LB o) (o_UB o)) G Q o.

(** repo: MapFactoryImpl12.cpp:15-28. *)
Definition Impl_LinPhys_AS : builder := fun G f o =>
  do Q <- Ok (make_as o);
  make_component f (lin_basis (poly_basis PhysicistHermite (o_norm o)) (o_LB o) (o_UB o)) G Q o.

(** repo: MapFactoryImpl13.cpp:15-30. *)
Definition Impl_LinProb_ACC : builder := fun G f o =>
  do Q <- make_acc o;
  make_component f (lin_basis (poly_basis ProbabilistHermite (o_norm o)) (o_LB o) (o_UB o)) G Q o.

(** repo: MapFactoryImpl14.cpp:15-28. *)
Definition Impl_LinProb_CC : builder := fun G f o =>
  do Q <- make_cc (o_pts o);
  make_component f (lin_basis (poly_basis ProbabilistHermite (o_norm o)) (o_LB o) (o_UB o)) G Q o.

(** repo: MapFactoryImpl15.cpp:15-28. *)
Definition Impl_LinProb_AS : builder := fun G f o =>
  do Q <- Ok (make_as o);
  make_component f (lin_basis (poly_basis ProbabilistHermite (o_norm o)) (o_LB o) (o_UB o)) G Q o.

(** repo: MapFactoryImpl16.cpp:15-28. *)
Definition Impl_LinHF_AS : builder := fun G f o =>
  do Q <- Ok (make_as o);
  make_component f (lin_basis hermite_functions (o_LB o) (o_UB o)) G Q o.

(** repo: MapFactoryImpl17.cpp:15-28. *)
Definition Impl_LinHF_CC : builder := fun G f o =>
  do Q <- make_cc (o_pts o);
  make_component f (lin_basis hermite_functions (o_LB o) (o_UB o)) G Q o.

(** repo: MapFactoryImpl18.cpp:15-29. *)
Definition Impl_LinHF_ACC : builder := fun G f o =>
  do Q <- make_acc o;
  make_component f (lin_basis hermite_functions (o_LB o) (o_UB o)) G Q o.

Definition registry : list (key * (fset -> options -> outcome component)) := [
  (** repo: MapFactoryImpl1.cpp:33-34 *)
  ((PhysHermite, false, PExp, AdaptiveClenshawCurtis), Impl_Phys_ACC pf_exp);
  ((PhysHermite, false, PSoftPlus, AdaptiveClenshawCurtis), Impl_Phys_ACC pf_softplus);
  (** repo: MapFactoryImpl2.cpp:29-30 *)
  ((PhysHermite, false, PExp, ClenshawCurtis), Impl_Phys_CC pf_exp);
  ((PhysHermite, false, PSoftPlus, ClenshawCurtis), Impl_Phys_CC pf_softplus);
  (** repo: MapFactoryImpl3.cpp:28-29 *)
  ((PhysHermite, false, PExp, AdaptiveSimpson), Impl_Phys_AS pf_exp);
  ((PhysHermite, false, PSoftPlus, AdaptiveSimpson), Impl_Phys_AS pf_softplus);
  (** repo: MapFactoryImpl4.cpp:30-31 *)
  ((ProbHermite, false, PExp, AdaptiveClenshawCurtis), Impl_Prob_ACC pf_exp);
  ((ProbHermite, false, PSoftPlus, AdaptiveClenshawCurtis), Impl_Prob_ACC pf_softplus);
  (** repo: MapFactoryImpl5.cpp:28-29 *)
  ((ProbHermite, false, PExp, ClenshawCurtis), Impl_Prob_CC pf_exp);
  ((ProbHermite, false, PSoftPlus, ClenshawCurtis), Impl_Prob_CC pf_softplus);
  (** repo: MapFactoryImpl6.cpp:28-29 *)
  ((ProbHermite, false, PExp, AdaptiveSimpson), Impl_Prob_AS pf_exp);
  ((ProbHermite, false, PSoftPlus, AdaptiveSimpson), Impl_Prob_AS pf_softplus);
  (** repo: MapFactoryImpl7.cpp:30-31 *)
  ((HermiteFunctions, false, PExp, AdaptiveClenshawCurtis), Impl_HF_ACC pf_exp);
  ((HermiteFunctions, false, PSoftPlus, AdaptiveClenshawCurtis), Impl_HF_ACC pf_softplus);
  (** repo: MapFactoryImpl8.cpp:28-29 *)
  ((HermiteFunctions, false, PExp, ClenshawCurtis), Impl_HF_CC pf_exp);
  ((HermiteFunctions, false, PSoftPlus, ClenshawCurtis), Impl_HF_CC pf_softplus);
  (** repo: MapFactoryImpl9.cpp:28-29 *)
  ((HermiteFunctions, false, PExp, AdaptiveSimpson), Impl_HF_AS pf_exp);
  ((HermiteFunctions, false, PSoftPlus, AdaptiveSimpson), Impl_HF_AS pf_softplus);
  (** repo: MapFactoryImpl10.cpp:33-34 *)
  ((PhysHermite, true, PExp, AdaptiveClenshawCurtis), Impl_LinPhys_ACC pf_exp);
  ((PhysHermite, true, PSoftPlus, AdaptiveClenshawCurtis), Impl_LinPhys_ACC pf_softplus);
  (** repo: MapFactoryImpl11.cpp:31-32 *)
  ((PhysHermite, true, PExp, ClenshawCurtis), Impl_LinPhys_CC pf_exp);
  ((PhysHermite, true, PSoftPlus, ClenshawCurtis), Impl_LinPhys_CC pf_softplus);
  (** repo: MapFactoryImpl12.cpp:30-31 *)
  ((PhysHermite, true, PExp, AdaptiveSimpson), Impl_LinPhys_AS pf_exp);
  ((PhysHermite, true, PSoftPlus, AdaptiveSimpson), Impl_LinPhys_AS pf_softplus);
  (** repo: MapFactoryImpl13.cpp:32-33 *)
  ((ProbHermite, true, PExp, AdaptiveClenshawCurtis), Impl_LinProb_ACC pf_exp);
  ((ProbHermite, true, PSoftPlus, AdaptiveClenshawCurtis), Impl_LinProb_ACC pf_softplus);
  (** repo: MapFactoryImpl14.cpp:30-31 *)
  ((ProbHermite, true, PExp, ClenshawCurtis), Impl_LinProb_CC pf_exp);
  ((ProbHermite, true, PSoftPlus, ClenshawCurtis), Impl_LinProb_CC pf_softplus);
  (** repo: MapFactoryImpl15.cpp:30-31 *)
  ((ProbHermite, true, PExp, AdaptiveSimpson), Impl_LinProb_AS pf_exp);
  ((ProbHermite, true, PSoftPlus, AdaptiveSimpson), Impl_LinProb_AS pf_softplus);
  (** repo: MapFactoryImpl16.cpp:30-31 *)
  ((HermiteFunctions, true, PExp, AdaptiveSimpson), Impl_LinHF_AS pf_exp);
  ((HermiteFunctions, true, PSoftPlus, AdaptiveSimpson), Impl_LinHF_AS pf_softplus);
  (** repo: MapFactoryImpl17.cpp:30-31 *)
  ((HermiteFunctions, true, PExp, ClenshawCurtis), Impl_LinHF_CC pf_exp);
  ((HermiteFunctions, true, PSoftPlus, ClenshawCurtis), Impl_LinHF_CC pf_softplus);
  (** repo: MapFactoryImpl18.cpp:31-32 *)
  ((HermiteFunctions, true, PExp, AdaptiveClenshawCurtis), Impl_LinHF_ACC pf_exp);
  ((HermiteFunctions, true, PSoftPlus, AdaptiveClenshawCurtis), Impl_LinHF_ACC pf_softplus)].

Definition basis_eqb (a b : basis_type) : bool :=
  match a, b with ProbHermite, ProbHermite | PhysHermite, PhysHermite | HermiteFunctions, HermiteFunctions => true | _, _ => false end.
Definition pos_eqb (a b : pos_type) : bool := match a, b with PExp, PExp | PSoftPlus, PSoftPlus => true | _, _ => false end.
Definition quad_eqb (a b : quad_type) : bool :=
  match a, b with ClenshawCurtis, ClenshawCurtis | AdaptiveSimpson, AdaptiveSimpson
  | AdaptiveClenshawCurtis, AdaptiveClenshawCurtis => true | _, _ => false end.
Definition key_eqb (a b : key) : bool :=
  let '(a1, a2, a3, a4) := a in let '(b1, b2, b3, b4) := b in
  basis_eqb a1 b1 && Bool.eqb a2 b2 && pos_eqb a3 b3 && quad_eqb a4 b4.

(** repo: MapFactory.h:132-146 GetFactoryFunction; std::map::insert keeps the first entry of a key. *)
Definition isinf (b : option R) : bool := match b with None => true | Some _ => false end.
Definition GetFactoryFunction (o : options) : outcome (fset -> options -> outcome component) :=
  let isLinearized := (negb (isinf (o_LB o)) || negb (isinf (o_UB o)))%bool in
  match find (fun e => key_eqb (fst e) (o_basis o, isLinearized, o_pos o, o_quad o)) registry with
  | Some e => Ok (snd e)
  | None => Throw
  end.
(** repo: MapFactory.cpp:19-23. *)
Definition CreateComponent (f : fset) (o : options) : outcome component :=
  do g <- GetFactoryFunction o; g f o.

(** * CreateTriangular. repo: MapFactory.cpp:102-119. [S i] is the scratch memory of component i. *)
Definition CreateTriangular (S : nat -> scratch) (inputDim outputDim totalOrder : nat) (o : options) : outcome cmap :=
  let extraInputs := u32_sub inputDim outputDim in
  do comps <- ofold (fun comps i =>
      do f <- f_total_order (u32 (N.of_nat (i + extraInputs + 1))) totalOrder;
      do C <- CreateComponent f o;
      Ok (comps ++ [mono_map C (S i)])) (seq 0 outputDim) [];
  tri_ctor comps.

(** * CreateExpansion. repo: MapFactory.cpp:123-168. The result is the worker inside the
    MultivariateExpansion. *)
Definition CreateExpansion (f : fset) (o : options) : outcome worker :=
  match o_basis o with
  | ProbHermite => if (isinf (o_LB o) && isinf (o_UB o))%bool then w_make f (poly_basis ProbabilistHermite (o_norm o))
                   else w_make f (lin_basis (poly_basis ProbabilistHermite (o_norm o)) (o_LB o) (o_UB o))
  | PhysHermite => if (isinf (o_LB o) && isinf (o_UB o))%bool then w_make f (poly_basis PhysicistHermite (o_norm o))
                   else w_make f (lin_basis (poly_basis PhysicistHermite (o_norm o)) (o_LB o) (o_UB o))
  | HermiteFunctions => if (isinf (o_LB o) && isinf (o_UB o))%bool then w_make f hermite_functions
                   else w_make f (lin_basis hermite_functions (o_LB o) (o_UB o))
  end.
End Factory.

(** * CreateSingleEntryMap. repo: MapFactory.cpp:27-98. [dbg]: see [id_map]. *)
Definition CreateSingleEntryMap (dbg : bool) (dim activeInd : nat) (comp : cmap) : outcome cmap :=
  if (dim <? activeInd)%nat then Throw
  else if negb (activeInd =? m_in comp)%nat then Throw
  else if (activeInd =? 1)%nat then
    tri_ctor [comp; id_map dbg dim (u32_sub dim activeInd)]
  else if (activeInd =? dim)%nat then
    let a := u32_sub activeInd 1 in
    tri_ctor [id_map dbg a a; comp]
  else
    let a := u32_sub activeInd 1 in
    tri_ctor [id_map dbg a a; comp; id_map dbg dim (u32_sub dim activeInd)].
