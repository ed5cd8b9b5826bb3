(** Model of MonotoneIntegrand and of the per-point work of MonotoneComponent (repo:
    MParT/MonotoneIntegrand.h, MParT/MonotoneComponent.h). Doubles are reals, so the test for
    infinite values (MonotoneIntegrand.h:184-190) never fires and is left out. Each routine of
    MonotoneComponent is a parallel loop over points whose body is the function below; scratch
    arrays have arbitrary contents. *)
From Coq Require Import Reals.
From Verif Require Import Base SpecMulti MISetModel FixedSetModel PolyModel BijModel ExpansionModel QuadModel RootModel.
Local Open Scope R_scope.

(** The template argument PosFuncType. repo: PositiveBijectors.h *)
Record posfunc : Type := MkPF { pf_eval : R -> R; pf_deriv : R -> R; pf_deriv2 : R -> R }.
Definition pf_softplus : posfunc := MkPF SoftPlus_Evaluate SoftPlus_Derivative SoftPlus_SecondDerivative.
Definition pf_exp : posfunc := MkPF Exp_Evaluate Exp_Derivative Exp_SecondDerivative.

(** The template argument QuadratureType: after SetDim(n), WorkspaceSize() and
    Integrate(workspace, f, lb, ub, res). *)
Record quad_rule : Type := MkQR {
  qr_work : nat -> nat;
  qr_int : nat -> list R -> (R -> list R) -> R -> R -> list R -> outcome (list R) }.
(** repo: Quadrature.h:170-181, 518-530, 784-796 (GetWorkspaceSize, SetDim), 279-309, 552-592, 818-851. [fuel] bounds the
    number of steps of the adaptive loops. *)
Definition qr_clenshaw (pts wts : list R) : quad_rule :=
  MkQR (fun n => n) (fun n ws f lb ub res => cc_Integrate pts wts n ws f lb ub res).
Definition set_dim (q : quad) (n : nat) : quad :=
  MkQuad n (q_maxSub q) (q_minSub q) (q_absTol q) (q_relTol q) (q_metric q).
Definition qr_simpson (q : quad) (fuel : nat) : quad_rule :=
  MkQR (as_WorkspaceSize (q_maxSub q)) (fun n ws f lb ub res => as_Integrate (set_dim q n) fuel ws f lb ub res).
Definition qr_adaptive_cc (q : quad) (level fuel : nat) : quad_rule :=
  MkQR (ac_WorkspaceSize (q_maxSub q))
       (fun n ws f lb ub res => do rl <- ac_make level; ac_Integrate (set_dim q n) rl fuel ws f lb ub res).

(** "for(i=0; i<n; ++i) v(i) *= scale" *)
Definition scale_by (s : R) (n : nat) (v : list R) : outcome (list R) :=
  ofold (fun v i => do a <- raw_get v i; raw_set v i (a * s)) (seq 0 n) v.

(** repo: MonotoneIntegrand.h:123-129 numOutputs. *)
Definition mi_size (w : worker) (dim : nat) (t : deriv_type) : nat :=
  match t with
  | DDiagonal => 2
  | DParameters | DMixed => S (w_NumCoeffs w)
  | DInput | DMixedInput => S dim
  | _ => 1
  end.

Section Integrand.
Variables (w : worker) (G : posfunc) (pt : list R) (xd : R) (coeffs : list R) (t : deriv_type) (nugget : R).
Let n := w_NumCoeffs w.
Let dim := length pt.

(** repo: MonotoneIntegrand.h:118-203 operator()(s, output). [cache] and [work] (the view
    workspace_) are modified. The constructors' assertions (76-77) exclude MixedInput. *)
Definition mi_call (cache work : list R) (s : R) (out : list R) : outcome (list R * list R * list R) :=
  do cache <- w_FillCache2 w cache (s * xd)
     (match t with DDiagonal | DMixed | DInput => DDiagonal2 | _ => DDiagonal end);
  do r <- match t with
    | DParameters =>
        do g <- seg out 1 n;
        do fg <- w_MixedCoeffDerivative w cache coeffs 1 g;
        let scale := xd * pf_deriv G (fst fg) in
        do g <- scale_by scale n (snd fg);
        Ok (fst fg, put out 1 g, work)
    | DMixed =>
        do df <- w_DiagonalDerivative w cache coeffs 1;
        let dgdf := pf_deriv G df in
        do fw <- w_MixedCoeffDerivative w cache coeffs 2 work;
        let df2 := fst fw in
        do work <- scale_by (xd * s * dgdf) n (snd fw);
        do g <- seg out 1 n;
        do fg <- w_MixedCoeffDerivative w cache coeffs 1 g;
        let scale := xd * s * df2 * pf_deriv2 G (fst fg) + dgdf in
        do g <- ofold (fun g i => do a <- raw_get g i; do b <- raw_get work i; raw_set g i (scale * a + b)) (seq 0 n) (snd fg);
        Ok (fst fg, put out 1 g, work)
    | DInput =>
        do g <- seg out 1 dim;
        do fg <- w_MixedInputDerivative w cache coeffs g;
        let scale := xd * pf_deriv G (fst fg) in
        do g <- scale_by scale (dim - 1) (snd fg);
        Ok (fst fg, put out 1 g, work)
    | DMixedInput => UB
    | _ => do df <- w_DiagonalDerivative w cache coeffs 1; Ok (df, out, work)
    end;
  let '(df, out, work) := r in
  let gf := pf_eval G df in
  do out <- raw_set out 0 (xd * (gf + nugget));
  do out <- match t with
    | DDiagonal | DInput =>
        let ind := match t with DDiagonal => 1%nat | _ => dim end in
        do d2f <- w_DiagonalDerivative w cache coeffs 2;
        do out <- raw_set out ind d2f;
        do a <- raw_get out ind;
        do out <- raw_set out ind (a * (xd * s * pf_deriv G df));
        do a <- raw_get out ind;
        raw_set out ind (a + (gf + nugget))
    | _ => Ok out
    end;
  Ok (cache, work, out).

(** The integrand as a function of the quadrature node, called on the given cache. *)
Definition mi_fun (cache work : list R) (s : R) : list R :=
  match mi_call cache work s (repeat 0 (mi_size w dim t)) with Ok r => snd r | _ => [] end.

(** quad.Integrate(workspace, integrand, 0, 1, res). The rule's result is computed from
    [mi_fun] on the cache at entry; [nodes] are the nodes at which the rule calls the
    integrand, in order, and determine the cache left behind. That the outputs do not depend
    on the earlier calls is proved (mi_calls_ok in MonoProofs.v), and every theorem holds for
    all [nodes]. *)
Definition mi_calls (nodes : list R) (cache work : list R) : outcome (list R * list R) :=
  ofold (fun st s => do r <- mi_call (fst st) (snd st) s (repeat 0 (mi_size w dim t)); Ok (fst r)) nodes (cache, work).
Definition mi_integrate (Q : quad_rule) (nodes cache work ws res : list R) : outcome (list R * list R) :=
  do st <- mi_calls nodes cache work;
  do res <- qr_int Q (mi_size w dim t) ws (mi_fun cache work) 0 1 res;
  Ok (res, fst st).
End Integrand.

(** A monotone component: expansion_, quad_, useContDeriv_, nugget_. *)
Record component : Type := MkMC { mc_w : worker; mc_G : posfunc; mc_Q : quad_rule; mc_cont : bool; mc_nugget : R }.

(** Scratch memory of one point and the nodes visited by its quadrature. *)
Record scratch : Type := MkScr { sc_cache : list R; sc_ws : list R; sc_res : list R; sc_work : list R; sc_nodes : list R }.

(** repo: MonotoneComponent.h:993-1016 EvaluateSingle. *)
Definition mc_EvaluateSingle (C : component) (S : scratch) (cache pt : list R) (xd : R) (coeffs : list R) (nugget : R) : outcome R :=
  let w := mc_w C in
  do r <- mi_integrate w (mc_G C) pt xd coeffs DNone nugget (mc_Q C) (sc_nodes S) cache [] (sc_ws S) [0];
  do cache <- w_FillCache2 w (snd r) 0 DNone;
  do v <- w_Evaluate w cache coeffs;
  do o <- raw_get (fst r) 0;
  Ok (o + v).

(** repo: MonotoneComponent.h:256-299 EvaluateImpl; the nugget argument of EvaluateSingle is left
    at its default 0. *)
Definition mc_Evaluate (C : component) (S : scratch) (pt coeffs : list R) : outcome R :=
  do cache <- w_FillCache1 (mc_w C) (sc_cache S) pt DNone;
  do xd <- raw_get pt (wdim (mc_w C) - 1);
  mc_EvaluateSingle C S cache pt xd coeffs 0.

(** repo: MonotoneComponent.h:352-382: the tolerances taken from the options. *)
Definition eps : R := / 2 ^ 52.
Definition inv_tolerances (xtol ytol : option R) : outcome (R * R) :=
  do xt <- match xtol with Some x => if Rltb x 0 then Throw else Ok x | None => Ok (/ 10 ^ 6) end;
  do yt <- match ytol with Some y => if Rltb y 0 then Throw else Ok y | None => Ok (/ 10 ^ 6) end;
  if (Rltb eps yt || Rltb eps xt)%bool then Ok (xt, yt) else Throw.

(** repo: MonotoneComponent.h:409-440 InverseImpl, one point. [pt] is a column of xs, whose last
    entry is the starting value. The function handed to the root finder is EvaluateSingle on the
    filled cache (SingleEvaluator, 1067-1081), which always returns (C36); NaN inputs are not
    modelled. *)
Definition mc_eval_at (C : component) (S : scratch) (cache pt coeffs : list R) (x : R) : R :=
  match mc_EvaluateSingle C S cache pt x coeffs (mc_nugget C) with Ok v => v | _ => 0 end.
Definition mc_Inverse (C : component) (S : scratch) (pt : list R) (y : R) (coeffs : list R) (xtol ytol : option R)
  : outcome (option R * Z) :=
  do tol <- inv_tolerances xtol ytol;
  do cache <- w_FillCache1 (mc_w C) (sc_cache S) pt DNone;
  do x0 <- raw_get pt (length pt - 1);
  Ok (InverseSingleBracket (mc_eval_at C S cache pt coeffs) y x0 (fst tol) (snd tol)).

(** repo: MonotoneComponent.h:488-531 ContinuousDerivative. *)
Definition mc_ContinuousDerivative (C : component) (S : scratch) (pt coeffs : list R) : outcome R :=
  do cache <- w_FillCache1 (mc_w C) (sc_cache S) pt DNone;
  do xd <- raw_get pt (length pt - 1);
  do cache <- w_FillCache2 (mc_w C) cache xd DDiagonal;
  do df <- w_DiagonalDerivative (mc_w C) cache coeffs 1;
  Ok (pf_eval (mc_G C) df).

(** MonotoneIntegrand's constructor without xd takes pt(pt.extent(0)-1). repo: MonotoneIntegrand.h:52-59 *)
Definition mi_run (C : component) (S : scratch) (cache pt coeffs : list R) (t : deriv_type) : outcome (list R * list R) :=
  do xd <- raw_get pt (length pt - 1);
  mi_integrate (mc_w C) (mc_G C) pt xd coeffs t (mc_nugget C) (mc_Q C) (sc_nodes S) cache (sc_work S) (sc_ws S) (sc_res S).

(** repo: MonotoneComponent.h:586-637 DiscreteDerivative: (evaluation, derivative). *)
Definition mc_DiscreteDerivative (C : component) (S : scratch) (pt coeffs : list R) : outcome (R * R) :=
  do cache <- w_FillCache1 (mc_w C) (sc_cache S) pt DNone;
  do r <- mi_run C S cache pt coeffs DDiagonal;
  do e <- raw_get (fst r) 0;
  do d <- raw_get (fst r) 1;
  do cache <- w_FillCache2 (mc_w C) (snd r) 0 DNone;
  do v <- w_Evaluate (mc_w C) cache coeffs;
  Ok (e + v, d).

(** repo: MonotoneComponent.h:685-740 CoeffJacobian: (evaluation, column of the Jacobian). *)
Definition mc_CoeffJacobian (C : component) (S : scratch) (pt coeffs jac : list R) : outcome (R * list R) :=
  do cache <- w_FillCache1 (mc_w C) (sc_cache S) pt DNone;
  do r <- mi_run C S cache pt coeffs DParameters;
  do e <- raw_get (fst r) 0;
  do cache <- w_FillCache2 (mc_w C) (snd r) 0 DNone;
  do vj <- w_CoeffDerivative (mc_w C) cache coeffs jac;
  do jac <- ofold (fun jac i => do a <- raw_get jac i; do b <- raw_get (fst r) (i + 1); raw_set jac i (a + b))
                  (seq 0 (length coeffs)) (snd vj);
  Ok (e + fst vj, jac).

(** repo: MonotoneComponent.h:758-815 InputJacobian. *)
Definition mc_InputJacobian (C : component) (S : scratch) (pt coeffs jac : list R) : outcome (R * list R) :=
  let dim := wdim (mc_w C) in
  do cache <- w_FillCache1 (mc_w C) (sc_cache S) pt DInput;
  do r <- mi_run C S cache pt coeffs DInput;
  do e <- raw_get (fst r) 0;
  do cache <- w_FillCache2 (mc_w C) (snd r) 0 DInput;
  do vj <- w_InputDerivative (mc_w C) cache coeffs jac;
  do jac <- ofold (fun jac i => do a <- raw_get jac i; do b <- raw_get (fst r) (i + 1); raw_set jac i (a + b))
                  (seq 0 (dim - 1)) (snd vj);
  do b <- raw_get (fst r) dim;
  do jac <- raw_set jac (dim - 1) b;
  Ok (e + fst vj, jac).

(** repo: MonotoneComponent.h:825-868 ContinuousMixedJacobian. *)
Definition mc_ContinuousMixedJacobian (C : component) (S : scratch) (pt coeffs jac : list R) : outcome (list R) :=
  do cache <- w_FillCache1 (mc_w C) (sc_cache S) pt DNone;
  do xd <- raw_get pt (length pt - 1);
  do cache <- w_FillCache2 (mc_w C) cache xd DDiagonal;
  do vj <- w_MixedCoeffDerivative (mc_w C) cache coeffs 1 jac;
  scale_by (pf_deriv (mc_G C) (fst vj)) (length coeffs) (snd vj).

(** repo: MonotoneComponent.h:877-921 ContinuousMixedInputJacobian. *)
Definition mc_ContinuousMixedInputJacobian (C : component) (S : scratch) (pt coeffs jac : list R) : outcome (list R) :=
  do cache <- w_FillCache1 (mc_w C) (sc_cache S) pt DMixedInput;
  do xd <- raw_get pt (length pt - 1);
  do cache <- w_FillCache2 (mc_w C) cache xd DMixedInput;
  do vj <- w_MixedInputDerivative (mc_w C) cache coeffs jac;
  scale_by (pf_deriv (mc_G C) (fst vj)) (length pt) (snd vj).

(** repo: MonotoneComponent.h:929-980 DiscreteMixedJacobian: the integral is added to the
    contents of the output column. *)
Definition mc_DiscreteMixedJacobian (C : component) (S : scratch) (pt coeffs jac : list R) : outcome (list R) :=
  do cache <- w_FillCache1 (mc_w C) (sc_cache S) pt DNone;
  do r <- mi_run C S cache pt coeffs DMixed;
  ofold (fun jac i => do a <- raw_get jac i; do b <- raw_get (fst r) (i + 1); raw_set jac i (a + b))
        (seq 0 (length coeffs)) jac.

(** The derivative used by the log determinant routines. *)
Definition mc_derivative (C : component) (S : scratch) (pt coeffs : list R) : outcome R :=
  if mc_cont C then mc_ContinuousDerivative C S pt coeffs
  else do ed <- mc_DiscreteDerivative C S pt coeffs; Ok (snd ed).

(** repo: MonotoneComponent.h:105-125 LogDeterminantImpl; None is minus infinity. *)
Definition mc_LogDeterminant (C : component) (S : scratch) (pt coeffs : list R) : outcome (option R) :=
  do d <- mc_derivative C S pt coeffs;
  Ok (if Rltb 0 d then Some (ln d) else None).

(** repo: MonotoneComponent.h:148-164 GradientImpl, 166-182 CoeffGradImpl. *)
Definition mc_Gradient (C : component) (S : scratch) (pt coeffs : list R) (sens : R) (out : list R) : outcome (list R) :=
  do ej <- mc_InputJacobian C S pt coeffs out; scale_by sens (wdim (mc_w C)) (snd ej).
Definition mc_CoeffGrad (C : component) (S : scratch) (pt coeffs : list R) (sens : R) (out : list R) : outcome (list R) :=
  do ej <- mc_CoeffJacobian C S pt coeffs out; scale_by sens (w_NumCoeffs (mc_w C)) (snd ej).

(** repo: MonotoneComponent.h:185-206 LogDeterminantCoeffGradImpl, 208-232
    LogDeterminantInputGradImpl (discrete derivatives are rejected). *)
Definition mc_LogDeterminantCoeffGrad (C : component) (S : scratch) (pt coeffs out : list R) : outcome (list R) :=
  do out <- (if mc_cont C then mc_ContinuousMixedJacobian C S pt coeffs out
             else mc_DiscreteMixedJacobian C S pt coeffs out);
  do d <- mc_derivative C S pt coeffs;
  scale_by (1 / d) (w_NumCoeffs (mc_w C)) out.
Definition mc_LogDeterminantInputGrad (C : component) (S : scratch) (pt coeffs out : list R) : outcome (list R) :=
  if mc_cont C then
    do out <- mc_ContinuousMixedInputJacobian C S pt coeffs out;
    do d <- mc_ContinuousDerivative C S pt coeffs;
    scale_by (1 / d) (wdim (mc_w C)) out
  else Throw.
