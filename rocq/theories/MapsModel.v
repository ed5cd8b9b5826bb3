(** Model of maps built from maps: TriangularMap, ComposedMap with its Checkpointer,
    IdentityMap, AffineMap and SummarizedMap (repo: src/*Map.cpp). Every routine acts on the
    columns of its point matrix independently, and the model follows one column. A routine
    receives its output array with its previous contents, so that a routine that leaves the
    output untouched is modelled as such. Each map reads its coefficients from the slice of
    the parent's array installed by SetCoeffs/WrapCoeffs (that installation is the subject of
    HeapModel.v). A subview that leaves its array is [UB]. *)
From Coq Require Import Reals.
From Verif Require Import Base ExpansionModel BijModel MonoModel.
Local Open Scope R_scope.

(** The virtual interface of ConditionalMapBase and ParameterizedFunctionBase: dimensions and
    the Impl routines. The first argument is the map's savedCoeffs, the last the contents of
    the output array. A log determinant of None is minus infinity. *)
Record cmap : Type := MkMap {
  m_in : nat; m_out : nat; m_nc : nat;
  m_eval : list R -> list R -> list R -> outcome (list R);
  m_logdet : list R -> list R -> option R -> outcome (option R);
  m_inv : list R -> list R -> list R -> list R -> outcome (list R);
  m_grad : list R -> list R -> list R -> list R -> outcome (list R);
  m_cgrad : list R -> list R -> list R -> list R -> outcome (list R);
  m_ldc : list R -> list R -> list R -> outcome (list R);
  m_ldi : list R -> list R -> list R -> outcome (list R) }.

(** Kokkos::deep_copy(dst, src) throws when the extents differ. *)
Definition deep_copy (dst src : list R) : outcome (list R) :=
  if (length dst =? length src)%nat then Ok src else Throw.
(** "for d<n: out(d) += sub(d)" *)
Definition add_into (n : nat) (out sub : list R) : outcome (list R) :=
  ofold (fun out d => do a <- raw_get out d; do b <- raw_get sub d; raw_set out d (a + b)) (seq 0 n) out.
Definition fresh (n : nat) : list R := repeat 0 n.
(** Sum of two doubles that may be minus infinity. *)
Definition ladd (a b : option R) : option R :=
  match a, b with Some x, Some y => Some (x + y) | _, _ => None end.

(** * TriangularMap *)
Section Triangular.
Variable comps : list cmap.

(** repo: TriangularMap.cpp:10-12 the dimensions handed to the base class. *)
Definition tri_in : nat := match rev comps with [] => 0 | K :: _ => m_in K end.
Definition tri_out : nat := fold_left (fun s K => s + m_out K)%nat comps 0%nat.
Definition tri_nc : nat := fold_left (fun s K => s + m_nc K)%nat comps 0%nat.

(** repo: TriangularMap.cpp:128-144 EvaluateImpl. *)
Definition tri_Evaluate (coeffs pts out : list R) : outcome (list R) :=
  do r <- ofold (fun (st : nat * nat * list R) K =>
            let '(so, sp, out) := st in
            do c <- seg coeffs sp (m_nc K);
            do subPts <- seg pts 0 (m_in K);
            do subOut <- seg out so (m_out K);
            do y <- m_eval K c subPts subOut;
            Ok ((so + m_out K)%nat, (sp + m_nc K)%nat, put out so y)) comps (0%nat, 0%nat, out);
  Ok (snd r).

(** repo: TriangularMap.cpp:100-125 LogDeterminantImpl: the first component writes into the
    output, the others into a buffer that is added to it. *)
Definition tri_LogDeterminant (coeffs pts : list R) (out : option R) : outcome (option R) :=
  match comps with
  | [] => Throw
  | K0 :: rest =>
      do c <- seg coeffs 0 (m_nc K0);
      do subPts <- seg pts 0 (m_in K0);
      do out <- m_logdet K0 c subPts out;
      do r <- ofold (fun (st : nat * option R * option R) K =>
                let '(sp, compDet, out) := st in
                do c <- seg coeffs sp (m_nc K);
                do subPts <- seg pts 0 (m_in K);
                do compDet <- m_logdet K c subPts compDet;
                Ok ((sp + m_nc K)%nat, compDet, ladd out compDet)) rest (m_nc K0, Some 0, out);
      Ok (snd r)
  end.

(** repo: TriangularMap.cpp:162-184 InverseInplace. The component's output is a part of the
    array [x] that it also receives as input; its routine reads the inputs it needs before it
    writes (MonotoneComponent, IdentityMap, nested TriangularMap) or reads only the leading
    rows (AffineMap, SummarizedMap), so the call is a function of the contents at entry. *)
Definition tri_InverseInplace (coeffs x r : list R) : outcome (list R) :=
  let extraInputs := (tri_in - tri_out)%nat in
  do res <- ofold (fun (st : nat * nat * list R) K =>
              let '(so, sp, x) := st in
              do c <- seg coeffs sp (m_nc K);
              do subX <- seg x 0 (m_in K);
              do subR <- seg r so (m_out K);
              do subOut <- seg x (extraInputs + so) (m_out K);
              do y <- m_inv K c subX subR subOut;
              Ok ((so + m_out K)%nat, (sp + m_nc K)%nat, put x (extraInputs + so) y)) comps (0%nat, 0%nat, x);
  Ok (snd res).
(** repo: TriangularMap.cpp:147-160 InverseImpl. *)
Definition tri_Inverse (coeffs x1 r out : list R) : outcome (list R) :=
  do head <- seg (fresh tri_in) 0 (length x1);
  do head <- deep_copy head x1;
  do full <- tri_InverseInplace coeffs (put (fresh tri_in) 0 head) r;
  do tail <- seg full (tri_in - tri_out) tri_out;
  deep_copy out tail.

(** repo: TriangularMap.cpp:188-224 GradientImpl. *)
Definition tri_Gradient (coeffs pts sens out : list R) : outcome (list R) :=
  do out <- ofold (fun out d => raw_set out d 0) (seq 0 (length pts)) out;
  do r <- ofold (fun (st : nat * nat * list R) K =>
            let '(so, sp, out) := st in
            do c <- seg coeffs sp (m_nc K);
            do subPts <- seg pts 0 (m_in K);
            do subSens <- seg sens so (m_out K);
            do subOut <- m_grad K c subPts subSens (fresh (m_in K));
            do out <- add_into (m_in K) out subOut;
            Ok ((so + m_out K)%nat, (sp + m_nc K)%nat, out)) comps (0%nat, 0%nat, out);
  Ok (snd r).

(** repo: TriangularMap.cpp:227-254 CoeffGradImpl. *)
Definition tri_CoeffGrad (coeffs pts sens out : list R) : outcome (list R) :=
  do r <- ofold (fun (st : nat * nat * list R) K =>
            let '(so, sp, out) := st in
            if (m_nc K =? 0)%nat then Ok ((so + m_out K)%nat, sp, out) else
            do c <- seg coeffs sp (m_nc K);
            do subPts <- seg pts 0 (m_in K);
            do subSens <- seg sens so (m_out K);
            do subOut <- seg out sp (m_nc K);
            do y <- m_cgrad K c subPts subSens subOut;
            Ok ((so + m_out K)%nat, (sp + m_nc K)%nat, put out sp y)) comps (0%nat, 0%nat, out);
  Ok (snd r).

(** repo: TriangularMap.cpp:257-276 LogDeterminantCoeffGradImpl. *)
Definition tri_LogDetCoeffGrad (coeffs pts out : list R) : outcome (list R) :=
  do r <- ofold (fun (st : nat * list R) K =>
            let '(sp, out) := st in
            if (m_nc K =? 0)%nat then Ok (sp, out) else
            do c <- seg coeffs sp (m_nc K);
            do subPts <- seg pts 0 (m_in K);
            do subOut <- seg out sp (m_nc K);
            do y <- m_ldc K c subPts subOut;
            Ok ((sp + m_nc K)%nat, put out sp y)) comps (0%nat, out);
  Ok (snd r).

(** repo: TriangularMap.cpp:279-310 LogDeterminantInputGradImpl: one buffer compGrad serves
    all components and is not cleared between them. *)
Definition tri_LogDetInputGrad (coeffs pts out : list R) : outcome (list R) :=
  do r <- ofold (fun (st : nat * list R * list R) K =>
            let '(sp, compGrad, out) := st in
            do c <- seg coeffs sp (m_nc K);
            do subPts <- seg pts 0 (m_in K);
            do subGrad <- seg compGrad 0 (m_in K);
            do subGrad <- m_ldi K c subPts subGrad;
            do out <- add_into (m_in K) out subGrad;
            Ok ((sp + m_nc K)%nat, put compGrad 0 subGrad, out))
          comps (0%nat, fresh tri_in, fresh (length out));
  Ok (snd r).

Definition tri_map : cmap :=
  MkMap tri_in tri_out tri_nc tri_Evaluate tri_LogDeterminant tri_Inverse tri_Gradient tri_CoeffGrad
        tri_LogDetCoeffGrad tri_LogDetInputGrad.

(** repo: TriangularMap.cpp:17-38: the loops over all components and over consecutive pairs. *)
Fixpoint chained (l : list cmap) : bool :=
  match l with
  | K1 :: ((K2 :: _) as t) => (m_in K2 =? m_in K1 + m_out K2)%nat && chained t
  | _ => true
  end.
(** repo: TriangularMap.cpp:10-61 constructor (the moving of coefficients is in HeapModel.v);
    components.back() of an empty vector is undefined. *)
Definition tri_ctor : outcome cmap :=
  match comps with
  | [] => UB
  | _ => if forallb (fun K => m_out K <=? m_in K)%nat comps && chained comps then Ok tri_map else Throw
  end.
End Triangular.

(** * ComposedMap *)

(** 32-bit signed arithmetic: overflow is undefined. *)
Definition ck (z : Z) : outcome Z := if ((- 2 ^ 31 <=? z) && (z <? 2 ^ 31))%Z then Ok z else UB.

(** repo: ComposedMap.cpp:47-52. [n] is layerInd+1-currLayer. *)
Fixpoint grow (fuel : nat) (n avail reps range : Z) : outcome (Z * Z) :=
  match fuel with
  | O => Fuel
  | S f =>
      if (range <? n)%Z then
        let reps := (reps + 1)%Z in
        do p <- ck (range * (reps + avail));
        grow f n avail reps (p / reps)
      else Ok (reps, range)
  end.

(** Checkpointer: the saved states with their layers (the back of the C++ vectors is the head
    of the list), maxSaves_ and the two workspaces. *)
Record checker : Type := MkChk { ch_saved : list (nat * list R); ch_max : nat; ch_w1 : list R; ch_w2 : list R }.

(** repo: ComposedMap.cpp:32-85 GetNextCheckpoint. The differences layerInd-currLayer are
    computed in unsigned arithmetic; they are not negative where the function is called. *)
Definition chk_Next (layers : list nat) (maxSaves layerInd : nat) : outcome Z :=
  match layers with
  | [] => UB
  | curr :: _ =>
      let currLayer := Z.of_nat curr in
      let L := Z.of_nat layerInd in
      let avail := (Z.of_nat maxSaves - Z.of_nat (length layers))%Z in
      if (avail =? 0)%Z then Ok (-1)%Z else
      do rr <- grow (S (S layerInd)) (L + 1 - currLayer)%Z avail 0 1;
      let '(reps, range) := rr in
      do p1 <- ck (range * reps);
      let bino1 := (p1 / (avail + reps))%Z in
      do bino2 <- (if (1 <? avail)%Z then do p <- ck (bino1 * avail); Ok (p / (avail + reps - 1))%Z else Ok 1%Z);
      do bino3 <- (if (avail =? 1)%Z then Ok 0%Z else
                   if (2 <? avail)%Z then do p <- ck (bino2 * (avail - 1)); Ok (p / (avail + reps - 2))%Z else Ok 1%Z);
      do p4 <- ck (bino2 * (reps - 1));
      let bino4 := (p4 / avail)%Z in
      do bino5 <- (if (avail <? 3)%Z then Ok 0%Z else
                   if (3 <? avail)%Z then do p <- ck (bino3 * (avail - 2)); Ok (p / reps)%Z else Ok 1%Z);
      let new :=
        (if L - currLayer <=? bino1 + bino3 then currLayer + bino4
         else if L - currLayer >=? range - bino5 then currLayer + bino1
         else L - bino2 - bino3)%Z in
      Ok (if (new =? currLayer)%Z then (currLayer + 1)%Z else new)
  end.

Section Composed.
Variable maps : list cmap.

(** Layer [i] with its slice of the coefficients. *)
Definition cmp_offset (i : nat) : nat := fold_left (fun s K => s + m_nc K)%nat (firstn i maps) 0%nat.
Definition layer (coeffs : list R) (i : nat) : outcome (cmap * list R) :=
  do K <- at_ maps i;
  do c <- seg coeffs (cmp_offset i) (m_nc K);
  Ok (K, c).
Definition layer_eval (coeffs : list R) (i : nat) (x out : list R) : outcome (list R) :=
  do Kc <- layer coeffs i; m_eval (fst Kc) (snd Kc) x out.

(** repo: ComposedMap.cpp:11-29 the constructor of the checkpointer. *)
Definition chk_make (maxSaves : nat) (pts : list R) : outcome checker :=
  if (maxSaves =? 0)%nat then Throw
  else Ok (MkChk [(0%nat, pts)] maxSaves (fresh (length pts)) (fresh (length pts))).

(** repo: ComposedMap.cpp:113-128: the loop of GetLayerInput, [k] iterations from layer [i]. *)
Fixpoint chk_loop (coeffs : list R) (layerInd : nat) (k i : nat) (next : Z) (ch : checker) : outcome checker :=
  match k with
  | O => Ok ch
  | S k =>
      do r <- (if (Z.of_nat i =? next)%Z then
                 let ch := MkChk ((i, ch_w1 ch) :: ch_saved ch) (ch_max ch) (ch_w1 ch) (ch_w2 ch) in
                 do next <- chk_Next (map fst (ch_saved ch)) (ch_max ch) layerInd;
                 Ok (next, ch)
               else Ok (next, ch));
      let '(next, ch) := r in
      do y <- layer_eval coeffs i (ch_w1 ch) (ch_w2 ch);
      chk_loop coeffs layerInd k (S i) next (MkChk (ch_saved ch) (ch_max ch) y (ch_w1 ch))
  end.

(** repo: ComposedMap.cpp:89-131 GetLayerInput; the recursion removes one saved state. *)
Fixpoint chk_get (coeffs : list R) (saved : list (nat * list R)) (maxSaves : nat) (w1 w2 : list R) (layerInd : nat)
  : outcome (list R * checker) :=
  match saved with
  | [] => UB
  | (lb, x) :: rest =>
      if (layerInd =? lb)%nat then Ok (x, MkChk saved maxSaves w1 w2)
      else if (layerInd <? lb)%nat then chk_get coeffs rest maxSaves w1 w2 layerInd
      else
        do next <- chk_Next (map fst saved) maxSaves layerInd;
        do y <- layer_eval coeffs lb x w1;
        do ch <- chk_loop coeffs layerInd (layerInd - S lb) (S lb) next (MkChk saved maxSaves y w2);
        Ok (ch_w1 ch, ch)
  end.
Definition chk_GetLayerInput (coeffs : list R) (ch : checker) (layerInd : nat) : outcome (list R * checker) :=
  chk_get coeffs (ch_saved ch) (ch_max ch) (ch_w1 ch) (ch_w2 ch) layerInd.

Variable maxChecks : nat.
Let n := length maps.
Definition cmp_nc : nat := fold_left (fun s K => s + m_nc K)%nat maps 0%nat.

(** repo: ComposedMap.cpp:268-283 EvaluateImpl. *)
Definition cmp_Evaluate (coeffs pts out : list R) : outcome (list R) :=
  do p1 <- layer_eval coeffs 0 pts (fresh (length pts));
  do r <- ofold (fun (st : list R * list R) j =>
            do y <- layer_eval coeffs j (fst st) (snd st); Ok (y, fst st)) (seq 1 (n - 1)) (p1, fresh (length pts));
  deep_copy out (fst r).

(** repo: ComposedMap.cpp:234-265 LogDeterminantImpl. *)
Definition cmp_LogDeterminant (coeffs pts : list R) (out : option R) : outcome (option R) :=
  do Kc <- layer coeffs 0;
  do out <- m_logdet (fst Kc) (snd Kc) pts out;
  if (n =? 1)%nat then Ok out else
  do r <- ofold (fun (st : list R * list R * option R * option R) i =>
            let '(p1, p2, inc, out) := st in
            do p2 <- layer_eval coeffs (i - 1) p1 p2;
            do Kc <- layer coeffs i;
            do inc <- m_logdet (fst Kc) (snd Kc) p2 inc;
            Ok (p2, p1, inc, ladd out inc)) (seq 1 (n - 1)) (pts, fresh (length pts), Some 0, out);
  Ok (snd r).

(** repo: ComposedMap.cpp:318-339 InverseImpl. *)
Definition cmp_Inverse (coeffs x1 r out : list R) : outcome (list R) :=
  do st <- ofold (fun (st : list R * list R) i =>
             do Kc <- layer coeffs i;
             do y <- m_inv (fst Kc) (snd Kc) x1 (fst st) (snd st);
             Ok (y, fst st)) (rev (seq 0 n)) (r, fresh (length r));
  deep_copy out (fst st).

(** repo: ComposedMap.cpp:286-314 GradientImpl. *)
Definition cmp_Gradient (coeffs pts sens out : list R) : outcome (list R) :=
  do ch <- chk_make maxChecks pts;
  do st <- ofold (fun (st : checker * list R * list R) i =>
             let '(ch, s1, s2) := st in
             do ic <- chk_GetLayerInput coeffs ch i;
             do Kc <- layer coeffs i;
             do s2 <- m_grad (fst Kc) (snd Kc) (fst ic) s1 s2;
             Ok (snd ic, s2, s1)) (rev (seq 0 n)) (ch, sens, fresh (length sens));
  deep_copy out (snd (fst st)).

(** repo: ComposedMap.cpp:342-380 CoeffGradImpl. *)
Definition cmp_CoeffGrad (coeffs pts sens out : list R) : outcome (list R) :=
  do ch <- chk_make maxChecks pts;
  do st <- ofold (fun (st : checker * list R * list R * nat * list R) i =>
             let '(ch, s1, s2, endp, out) := st in
             do ic <- chk_GetLayerInput coeffs ch i;
             do Kc <- layer coeffs i;
             let nc := m_nc (fst Kc) in
             do subOut <- seg out (endp - nc) nc;
             do y <- m_cgrad (fst Kc) (snd Kc) (fst ic) s1 subOut;
             let out := put out (endp - nc) y in
             do ss <- (if (0 <? i)%nat then
                         do s2 <- m_grad (fst Kc) (snd Kc) (fst ic) s1 s2; Ok (s2, s1)
                       else Ok (s1, s2));
             Ok (snd ic, fst ss, snd ss, (endp - nc)%nat, out))
           (rev (seq 0 n)) (ch, sens, fresh (length sens), cmp_nc, out);
  Ok (snd st).

(** repo: ComposedMap.cpp:384-437 LogDeterminantCoeffGradImpl. *)
Definition cmp_LogDetCoeffGrad (coeffs pts out : list R) : outcome (list R) :=
  do ch <- chk_make maxChecks pts;
  do ic <- chk_GetLayerInput coeffs ch (n - 1);
  do Kc <- layer coeffs (n - 1);
  let nc := m_nc (fst Kc) in
  do subOut <- seg out (cmp_nc - nc) nc;
  do y <- m_ldc (fst Kc) (snd Kc) (fst ic) subOut;
  let out := put out (cmp_nc - nc) y in
  do s1 <- m_ldi (fst Kc) (snd Kc) (fst ic) (fresh (length pts));
  do st <- ofold (fun (st : checker * list R * list R * nat * list R) i =>
             let '(ch, s1, s2, endp, out) := st in
             do ic <- chk_GetLayerInput coeffs ch i;
             do Kc <- layer coeffs i;
             let nc := m_nc (fst Kc) in
             do subOut <- seg out (endp - nc) nc;
             do y <- m_ldc (fst Kc) (snd Kc) (fst ic) subOut;
             do sub2 <- m_cgrad (fst Kc) (snd Kc) (fst ic) s1 (fresh nc);
             do y <- add_into (length y) y sub2;
             let out := put out (endp - nc) y in
             do ss <- (if (0 <? i)%nat then
                         do s2 <- m_grad (fst Kc) (snd Kc) (fst ic) s1 s2;
                         do s1 <- m_ldi (fst Kc) (snd Kc) (fst ic) s1;
                         do s2' <- add_into (length s2) s2 s1;
                         Ok (s2', s1)
                       else Ok (s1, s2));
             Ok (snd ic, fst ss, snd ss, (endp - nc)%nat, out))
           (rev (seq 0 (n - 1))) (snd ic, s1, fresh (length pts), (cmp_nc - nc)%nat, out);
  Ok (snd st).

(** repo: ComposedMap.cpp:442-468 LogDeterminantInputGradImpl. After the swap the routine of
    the layer writes into the buffer that held the incoming sensitivity. *)
Definition cmp_LogDetInputGrad (coeffs pts out : list R) : outcome (list R) :=
  do ch <- chk_make maxChecks pts;
  do ic <- chk_GetLayerInput coeffs ch (n - 1);
  do Kc <- layer coeffs (n - 1);
  do s1 <- m_ldi (fst Kc) (snd Kc) (fst ic) (fresh (length pts));
  do st <- ofold (fun (st : checker * list R * list R) i =>
             let '(ch, s1, s2) := st in
             do ic <- chk_GetLayerInput coeffs ch i;
             do Kc <- layer coeffs i;
             do s2 <- m_grad (fst Kc) (snd Kc) (fst ic) s1 s2;
             do s1 <- m_ldi (fst Kc) (snd Kc) (fst ic) s1;
             do s2' <- add_into (length s2) s2 s1;
             Ok (snd ic, s2', s1)) (rev (seq 0 (n - 1))) (snd ic, s1, fresh (length pts));
  deep_copy out (snd (fst st)).

Definition cmp_map : cmap :=
  MkMap (match maps with [] => 0 | K :: _ => m_in K end) (match maps with [] => 0 | K :: _ => m_in K end) cmp_nc
        cmp_Evaluate cmp_LogDeterminant cmp_Inverse cmp_Gradient cmp_CoeffGrad cmp_LogDetCoeffGrad cmp_LogDetInputGrad.

(** repo: ComposedMap.cpp:142-157: the dimension checks. *)
Fixpoint squares (l : list cmap) : bool :=
  match l with
  | K1 :: ((K2 :: _) as t) => (m_in K1 =? m_out K1)%nat && (m_out K1 =? m_in K2)%nat && squares t
  | [K] => (m_in K =? m_out K)%nat
  | [] => true
  end.
End Composed.

(** repo: ComposedMap.cpp:135-178 constructor; maps.front() of an empty vector is undefined. *)
Definition cmp_ctor (maps : list cmap) (maxChecks : Z) : outcome cmap :=
  match maps with
  | [] => UB
  | _ => if squares maps
         then Ok (cmp_map maps (if (maxChecks <=? 0)%Z then length maps else Z.to_nat maxChecks))
         else Throw
  end.
