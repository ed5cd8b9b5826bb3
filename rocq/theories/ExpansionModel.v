(** Model of MultivariateExpansionWorker and MultivariateExpansion (repo:
    MParT/MultivariateExpansionWorker.h, MParT/MultivariateExpansion.h). Doubles are reals,
    the cache is a list of reals with arbitrary initial contents; an access past its end is
    [UB]. *)
From Coq Require Import Reals.
From Verif Require Import Base SpecMulti MISetModel FixedSetModel PolyModel.
Local Open Scope R_scope.

(** repo: DerivativeFlags.h:7-15. *)
Inductive deriv_type : Type := DNone | DParameters | DDiagonal | DDiagonal2 | DMixed | DInput | DMixedInput.

Record worker : Type := MkW { wdim : nat; wset : fset; wbasis : basis; wstart : list nat; wcache : nat }.

(** repo: MultivariateExpansionWorker.h:17-36, 94-108: exclusive scan of the segment lengths
    over 0..2*dim+1, and CacheSize. *)
Definition seg_len (dim : nat) (mx : list nat) (i : nat) : outcome nat :=
  if (i <? 2 * dim)%nat then do m <- raw_get mx (i mod dim); Ok (m + 1)%nat
  else do m <- raw_get mx (dim - 1); Ok (m + 1)%nat.
Definition w_make (s : fset) (B : basis) : outcome worker :=
  let dim := f_Length s in
  do r <- ofold (fun (r : list nat * nat) i =>
            do st <- raw_set (fst r) i (snd r);
            do l <- seg_len dim (f_MaxDegrees s) i;
            Ok (st, snd r + l)%nat)
          (seq 0 (2 * dim + 2)) (repeat 0%nat (2 * dim + 2), 0%nat);
  do c <- raw_get (fst r) (2 * dim + 1);
  Ok (MkW dim s B (fst r) c).

Definition w_CacheSize (w : worker) : nat := wcache w.
Definition w_NumCoeffs (w : worker) : nat := f_Size (wset w).

(** The [n] entries at [off], and putting them back. A range that leaves the cache is [UB]. *)
Definition seg (cache : list R) (off n : nat) : outcome (list R) :=
  if (off + n <=? length cache)%nat then Ok (firstn n (skipn off cache)) else UB.
Definition put (cache : list R) (off : nat) (s : list R) : list R :=
  firstn off cache ++ s ++ skipn (off + length s) cache.

(** Calls of the basis routines on pointers into the cache. The routine gets exactly its
    own segment of maxDegree+1 entries: an access outside of it is [UB] in the model. *)
Definition call_all (w : worker) (cache : list R) (p deg : nat) (x : R) : outcome (list R) :=
  do o <- raw_get (wstart w) p;
  do s <- seg cache o (deg + 1);
  do s <- b_all (wbasis w) s deg x;
  Ok (put cache o s).
Definition call_derivs (w : worker) (cache : list R) (p q deg : nat) (x : R) : outcome (list R) :=
  do o <- raw_get (wstart w) p;
  do o' <- raw_get (wstart w) q;
  do s <- seg cache o (deg + 1);
  do s' <- seg cache o' (deg + 1);
  do r <- b_derivs (wbasis w) s s' deg x;
  Ok (put (put cache o (fst r)) o' (snd r)).
Definition call_second (w : worker) (cache : list R) (p q q2 deg : nat) (x : R) : outcome (list R) :=
  do o <- raw_get (wstart w) p;
  do o' <- raw_get (wstart w) q;
  do o2 <- raw_get (wstart w) q2;
  do s <- seg cache o (deg + 1);
  do s' <- seg cache o' (deg + 1);
  do s2 <- seg cache o2 (deg + 1);
  do r <- b_second (wbasis w) s s' s2 deg x;
  Ok (put (put (put cache o (fst (fst r))) o' (snd (fst r))) o2 (snd r)).

(** repo: MultivariateExpansionWorker.h:137-151. *)
Definition w_FillCache1 (w : worker) (cache pt : list R) (t : deriv_type) : outcome (list R) :=
  ofold (fun cache d =>
    do x <- raw_get pt d;
    do m <- raw_get (f_MaxDegrees (wset w)) d;
    match t with
    | DInput | DMixedInput => call_derivs w cache d (d + wdim w) m x
    | _ => call_all w cache d m x
    end) (seq 0 (wdim w - 1)) cache.

(** repo: MultivariateExpansionWorker.h:166-190. Nothing is filled for Mixed. *)
Definition w_FillCache2 (w : worker) (cache : list R) (xd : R) (t : deriv_type) : outcome (list R) :=
  do m <- raw_get (f_MaxDegrees (wset w)) (wdim w - 1);
  match t with
  | DNone | DParameters => call_all w cache (wdim w - 1) m xd
  | DDiagonal | DInput => call_derivs w cache (wdim w - 1) (2 * wdim w - 1) m xd
  | DDiagonal2 | DMixedInput => call_second w cache (wdim w - 1) (2 * wdim w - 1) (2 * wdim w) m xd
  | DMixed => Ok cache
  end.

(** "for(i=nzStarts(term); i<nzStarts(term+1); ++i)" with nzDims(i) and nzOrders(i). *)
Definition nz_loop {T} (s : fset) (term : nat) (body : T -> nat -> nat -> outcome T) (z : T) : outcome T :=
  do a <- raw_get (fstarts s) term;
  do b <- raw_get (fstarts s) (term + 1);
  ofold (fun z i => do k <- raw_get (fdims s) i; do o <- raw_get (forders s) i; body z k o) (seq a (b - a)) z.

(** polyCache[startPos_(p) + o] *)
Definition cget (w : worker) (cache : list R) (p o : nat) : outcome R :=
  do s <- raw_get (wstart w) p; raw_get cache (s + o).

(** repo: MultivariateExpansionWorker.h:194-211. *)
Definition w_Evaluate (w : worker) (cache coeffs : list R) : outcome R :=
  ofold (fun out term =>
    do v <- nz_loop (wset w) term (fun v k o => do c <- cget w cache k o; Ok (v * c)) 1;
    do a <- raw_get coeffs term;
    Ok (out + v * a)) (seq 0 (w_NumCoeffs w)) 0.

(** The term loop shared by DiagonalDerivative and MixedCoeffDerivative. *)
Definition diag_term (w : worker) (cache : list R) (pos term : nat) : outcome (R * bool) :=
  nz_loop (wset w) term (fun (z : R * bool) k o =>
    if (k =? wdim w - 1)%nat then do c <- cget w cache pos o; Ok (fst z * c, true)
    else do c <- cget w cache k o; Ok (fst z * c, snd z)) (1, false).

(** repo: MultivariateExpansionWorker.h:222-254; derivOrder other than 1, 2 fails the assertion
    (modelled as [UB]). *)
Definition w_DiagonalDerivative (w : worker) (cache coeffs : list R) (order : nat) : outcome R :=
  if negb ((order =? 1) || (order =? 2))%nat then UB else
  ofold (fun out term =>
    do z <- diag_term w cache (2 * wdim w + order - 2) term;
    if snd z then do a <- raw_get coeffs term; Ok (out + fst z * a) else Ok out)
    (seq 0 (w_NumCoeffs w)) 0.

(** repo: MultivariateExpansionWorker.h:270-287. Returns the value and the gradient array. *)
Definition w_CoeffDerivative (w : worker) (cache coeffs grad : list R) : outcome (R * list R) :=
  ofold (fun (r : R * list R) term =>
    do v <- nz_loop (wset w) term (fun v k o => do c <- cget w cache k o; Ok (v * c)) 1;
    do a <- raw_get coeffs term;
    do g <- raw_set (snd r) term v;
    Ok (fst r + v * a, g)) (seq 0 (w_NumCoeffs w)) (0, grad).

(** The loop variable wrt runs over -1 (None), 0, ..., dim-1. *)
Definition wrts (dim : nat) : list (option nat) := None :: map Some (seq 0 dim).
Definition is_wrt (wrt : option nat) (k : nat) : bool := match wrt with Some j => (k =? j)%nat | None => false end.
Definition wrt_pos (wrt : option nat) : nat := match wrt with Some j => j | None => 0%nat end.
(** "if(wrt>=0) grad(wrt) = 0" *)
Definition wrt_clear (grad : list R) (wrt : option nat) : outcome (list R) :=
  match wrt with Some j => raw_set grad j 0 | None => Ok grad end.
(** "grad(wrt) += v" *)
Definition wrt_add (grad : list R) (wrt : option nat) (v : R) : outcome (list R) :=
  match wrt with Some j => do g <- raw_get grad j; raw_set grad j (g + v) | None => UB end.

(** repo: MultivariateExpansionWorker.h:296-329. *)
Definition w_InputDerivative (w : worker) (cache coeffs grad : list R) : outcome (R * list R) :=
  ofold (fun (r : R * list R) wrt =>
    do g <- wrt_clear (snd r) wrt;
    ofold (fun (r : R * list R) term =>
      do z <- nz_loop (wset w) term (fun (z : R * bool) k o =>
          if is_wrt wrt k then do c <- cget w cache (wdim w + wrt_pos wrt) o; Ok (fst z * c, true)
          else do c <- cget w cache k o; Ok (fst z * c, snd z)) (1, false);
      do a <- raw_get coeffs term;
      if snd z then do g <- wrt_add (snd r) wrt (fst z * a); Ok (fst r, g)
      else match wrt with None => Ok (fst r + fst z * a, snd r) | Some _ => Ok r end)
      (seq 0 (w_NumCoeffs w)) (fst r, g)) (wrts (wdim w)) (0, grad).

(** repo: MultivariateExpansionWorker.h:338-382. *)
Definition w_MixedInputDerivative (w : worker) (cache coeffs grad : list R) : outcome (R * list R) :=
  ofold (fun (r : R * list R) wrt =>
    do g <- wrt_clear (snd r) wrt;
    ofold (fun (r : R * list R) term =>
      do z <- nz_loop (wset w) term (fun (z : R * bool * bool) k o =>
          if (k =? wdim w - 1)%nat then
            do c <- cget w cache (if is_wrt wrt (wdim w - 1) then 2 * wdim w else 2 * wdim w - 1)%nat o;
            Ok (fst (fst z) * c, if is_wrt wrt (wdim w - 1) then true else snd (fst z), true)
          else if is_wrt wrt k then do c <- cget w cache (wdim w + wrt_pos wrt) o; Ok (fst (fst z) * c, true, snd z)
          else do c <- cget w cache k o; Ok (fst (fst z) * c, snd (fst z), snd z)) (1, false, false);
      do a <- raw_get coeffs term;
      if snd (fst z) && snd z then do g <- wrt_add (snd r) wrt (fst (fst z) * a); Ok (fst r, g)
      else match wrt with
           | None => if snd z then Ok (fst r + fst (fst z) * a, snd r) else Ok r
           | Some _ => Ok r
           end)
      (seq 0 (w_NumCoeffs w)) (fst r, g)) (wrts (wdim w)) (0, grad).

(** repo: MultivariateExpansionWorker.h:391-428. *)
Definition w_MixedCoeffDerivative (w : worker) (cache coeffs : list R) (order : nat) (grad : list R) : outcome (R * list R) :=
  if negb ((order =? 1) || (order =? 2))%nat then UB else
  ofold (fun (r : R * list R) term =>
    do z <- diag_term w cache (2 * wdim w + order - 2) term;
    if snd z then
      do a <- raw_get coeffs term;
      do g <- raw_set (snd r) term (fst z);
      Ok (fst r + fst z * a, g)
    else do g <- raw_set (snd r) term 0; Ok (fst r, g))
    (seq 0 (w_NumCoeffs w)) (0, grad).

(** Both cache filling calls at a full point, the last coordinate being pt(pt.size()-1). *)
Definition w_Fill (w : worker) (cache pt : list R) (t : deriv_type) : outcome (list R) :=
  do cache <- w_FillCache1 w cache pt t;
  do xd <- raw_get pt (length pt - 1);
  w_FillCache2 w cache xd t.

(** repo: MultivariateExpansion.h:45-98 EvaluateImpl, the work for one point: column of
    outputDim values. [cache] is the scratch memory of CacheSize() doubles. *)
Definition subview (c : list R) (a n : nat) : outcome (list R) := seg c a n.
Definition mve_Evaluate (w : worker) (outDim : nat) (saved cache pt out : list R) : outcome (list R) :=
  do cache <- w_Fill w cache pt DNone;
  do r <- ofold (fun (r : nat * list R) d =>
      do coeffs <- subview saved (fst r) (w_NumCoeffs w);
      do v <- w_Evaluate w cache coeffs;
      do out <- raw_set (snd r) d v;
      Ok (fst r + w_NumCoeffs w, out)%nat) (seq 0 outDim) (0%nat, out);
  Ok (snd r).

(** repo: MultivariateExpansion.h:100-157 GradientImpl, one point. [grad] is scratch memory. *)
Definition mve_Gradient (w : worker) (outDim : nat) (saved cache grad pt sens out : list R) : outcome (list R) :=
  do cache <- w_Fill w cache pt DInput;
  do out <- ofold (fun out i => raw_set out i 0) (seq 0 (length pt)) out;
  do r <- ofold (fun (r : nat * list R * list R) d =>
      let '(st, grad, out) := r in
      do coeffs <- subview saved st (w_NumCoeffs w);
      do fg <- w_InputDerivative w cache coeffs grad;
      do s <- raw_get sens d;
      do out <- ofold (fun out i => do g <- raw_get (snd fg) i; do o <- raw_get out i; raw_set out i (o + s * g))
                      (seq 0 (length pt)) out;
      Ok (st + w_NumCoeffs w, snd fg, out)%nat) (seq 0 outDim) (0%nat, grad, out);
  Ok (snd r).

(** repo: MultivariateExpansion.h:160-218 CoeffGradImpl, one point. *)
Definition mve_CoeffGrad (w : worker) (outDim : nat) (saved cache grad pt sens out : list R) : outcome (list R) :=
  do cache <- w_Fill w cache pt DParameters;
  do r <- ofold (fun (r : nat * list R * list R) d =>
      let '(st, grad, out) := r in
      do coeffs <- subview saved st (w_NumCoeffs w);
      do fg <- w_CoeffDerivative w cache coeffs grad;
      do s <- raw_get sens d;
      do out <- ofold (fun out i => do g <- raw_get (snd fg) i; raw_set out (st + i) (s * g))
                      (seq 0 (w_NumCoeffs w)) out;
      Ok (st + w_NumCoeffs w, snd fg, out)%nat) (seq 0 outDim) (0%nat, grad, out);
  Ok (snd r).
