(** Model of the quadrature rules (repo: MParT/Quadrature.h). Doubles are reals. Arrays are
    lists; an access past the end is [UB]. An integrand is a function [f]
    returning the [fdim] numbers it writes. *)
From Coq Require Import Reals NArith.
From Verif Require Import Base SpecQuad PolyModel.
Local Open Scope R_scope.

(** The call f(x, &ws[p]). *)
Definition store (ws : list R) (p : nat) (v : list R) : outcome (list R) :=
  if (p + length v <=? length ws)%nat then Ok (firstn p ws ++ v ++ skipn (p + length v) ws) else UB.

(** ** ClenshawCurtisQuadrature *)

(** repo: Quadrature.h:210-256 GetRule(numPts, wts, pts). The unsigned product
    4*(j+1)*(j+1)-1 is taken without wrap-around (numPts below 2^16). *)
Definition GetRule (n : nat) (wts pts : list R) : outcome (list R * list R) :=
  match n with
  | O => Ok (wts, pts)
  | S O => do pts <- raw_set pts 0 0; do wts <- raw_set wts 0 2; Ok (wts, pts)
  | _ =>
      do pts <- ofold (fun pts i => raw_set pts i (cos (INR (n - (i + 1)) * PI / INR (n - 1)))) (seq 0 n) pts;
      do pts <- raw_set pts 0 (-1);
      do pts <- (if (n mod 2 =? 1)%nat then raw_set pts ((n - 1) / 2) 0 else Ok pts);
      do pts <- raw_set pts (n - 1) 1;
      do wts <- ofold (fun wts i =>
          do wts <- raw_set wts i 1;
          let theta := INR i * PI / INR (n - 1) in
          ofold (fun wts j =>
              let b := if (2 * (j + 1) =? n - 1)%nat then 1 else 2 in
              do w <- raw_get wts i;
              raw_set wts i (w - b * cos (2 * INR (j + 1) * theta) / INR (4 * (j + 1) * (j + 1) - 1)))
            (seq 0 ((n - 1) / 2)) wts)
        (seq 0 n) wts;
      do w <- raw_get wts 0;
      do wts <- raw_set wts 0 (w / (INR n - 1));
      do wts <- ofold (fun wts i => do w <- raw_get wts i; raw_set wts i (2 * w / (INR n - 1))) (seq 1 (n - 2)) wts;
      do w <- raw_get wts (n - 1);
      do wts <- raw_set wts (n - 1) (w / (INR n - 1));
      Ok (wts, pts)
  end.

(** repo: Quadrature.h:279-309 Integrate. epsilon() is 2^-52. [ws] is the workspace of at
    least fdim doubles. *)
Definition midpoint_tol : R := 15 * / 2 ^ 52.
Definition cc_Integrate (pts wts : list R) (fdim : nat) (ws : list R) (f : R -> list R) (lb ub : R) (res : list R)
  : outcome (list R) :=
  if Rltb (ub - lb) midpoint_tol then
    do res <- store res 0 (f (1/2 * (ub + lb)));
    ofold (fun res i => do v <- raw_get res i; raw_set res i (v * (ub - lb))) (seq 0 fdim) res
  else
    do res <- ofold (fun res j => raw_set res j 0) (seq 0 fdim) res;
    do r <- ofold (fun (r : list R * list R) i =>
        do p <- raw_get pts i;
        do ws <- store (fst r) 0 (f (1/2 * (ub + lb + (ub - lb) * p)));
        do res <- ofold (fun res j =>
            do v <- raw_get res j; do w <- raw_get wts i; do fv <- raw_get ws j;
            raw_set res j (v + 1/2 * (ub - lb) * w * fv)) (seq 0 fdim) (snd r);
        Ok (ws, res)) (seq 0 (length pts)) (ws, res);
    Ok (snd r).

(** ** RecursiveQuadratureBase *)

Record quad : Type := MkQuad {
  q_fdim : nat; q_maxSub : nat; q_minSub : nat; q_absTol : R; q_relTol : R; q_metric : metric
}.

(** repo: Quadrature.h:439-479 EstimateError; [c] and [f] are the positions of the coarse and
    fine values in the workspace. *)
Definition EstimateError (q : quad) (ws : list R) (c f : nat) : outcome (R * R) :=
  do r <- match q_metric q with
    | First => do y <- raw_get ws f; do x <- raw_get ws c; Ok (Rabs (y - x), Rabs x)
    | NormInf => ofold (fun (r : R * R) i => do y <- raw_get ws (f + i); do x <- raw_get ws (c + i);
                   Ok (Rmax (fst r) (Rabs (y - x)), Rmax (snd r) (Rabs x))) (seq 0 (q_fdim q)) (0, 0)
    | Norm2 => do r <- ofold (fun (r : R * R) i => do y <- raw_get ws (f + i); do x <- raw_get ws (c + i);
                   Ok (fst r + (y - x) * (y - x), snd r + x * x)) (seq 0 (q_fdim q)) (0, 0);
               Ok (sqrt (fst r), sqrt (snd r))
    | Norm1 => ofold (fun (r : R * R) i => do y <- raw_get ws (f + i); do x <- raw_get ws (c + i);
                   Ok (fst r + Rabs (y - x), snd r + Rabs x)) (seq 0 (q_fdim q)) (0, 0)
    end;
  Ok (fst r, Rmax (q_relTol q * snd r) (q_absTol q)).

(** repo: Quadrature.h:624, 902: the stopping test. "currLevel==maxSub_-1" is unsigned: for
    maxSub_=0 the right side is 2^32-1, which no level reaches (the workspace ends earlier). *)
Definition stop_test (q : quad) (lb ub error tol : R) (level : nat) : bool :=
  ((Rltb error tol || match q_maxSub q with O => false | S m => (level =? m)%nat end) && (q_minSub q <=? level)%nat)
  || Rltb (Rabs (ub - lb)) (/ 10 ^ 14).

(** "(currSegment >> k) & 1U" on a 32-bit unsigned; shifting by 32 or more is undefined. *)
Definition seg_bit (sg : N) (k : nat) : outcome bool :=
  if (k <? 32)%nat then Ok (negb (N.eqb (N.land (N.shiftr sg (N.of_nat k)) 1) 0)) else UB.

(** repo: Quadrature.h:631-634, 909-912: climb to the lowest level still on its left branch.
    The condition reads the bit before it tests currLevel>0. *)
Fixpoint climb (level : nat) (sg : N) : outcome (nat * N) :=
  do b <- seg_bit sg level;
  match level with
  | O => Ok (O, sg)
  | S l => if b then climb l (N.ldiff sg (N.shiftl 1 (N.of_nat level))) else Ok (level, sg)
  end.

(** "res[i] += intFine[i]" *)
Definition add_fine (q : quad) (ws res : list R) : outcome (list R) :=
  ofold (fun res i => do v <- raw_get res i; do y <- raw_get ws (4 * q_fdim q + i); raw_set res i (v + y))
        (seq 0 (q_fdim q)) res.

(** ** AdaptiveSimpson *)

(** repo: Quadrature.h:521. *)
Definition as_WorkspaceSize (maxSub fdim : nat) : nat := ((2 * maxSub + 5) * fdim + 2 * maxSub)%nat.
Definition as_start (fdim level : nat) : nat := ((2 * level + 5) * fdim + 2 * level)%nat.

(** repo: Quadrature.h:696-712 UpdateValues; returns the positions of the left, middle and
    right values. *)
Definition as_UpdateValues (fdim level : nat) (sg : N) : outcome (nat * nat * nat) :=
  ofold (fun (p : nat * nat * nat) l =>
    let '(lv, mv, rv) := p in
    do b <- seg_bit sg (l + 1);
    if b then Ok (mv, ((2 * l + 5 + 1) * fdim + 2 * l + 2)%nat, rv)
    else Ok (lv, ((2 * l + 5) * fdim + 2 * l + 2)%nat, mv))
  (seq 0 level) (0%nat, (2 * fdim)%nat, fdim).

(** repo: Quadrature.h:598-622: one pass over the current interval, which starts at
    [st] in the workspace; returns the workspace with both estimates. *)
Definition as_estimate (q : quad) (f : R -> list R) (ws : list R) (st lv mv rv : nat) : outcome (list R) :=
  let fd := q_fdim q in
  do l <- raw_get ws st;
  do r <- raw_get ws (st + 1);
  let mid := 1/2 * (l + r) in
  do ws <- store ws (st + 2) (f (1/2 * (l + mid)));
  do ws <- store ws (st + 2 + fd) (f (1/2 * (mid + r)));
  ofold (fun ws i =>
    do fl <- raw_get ws (lv + i); do fm <- raw_get ws (mv + i); do fr <- raw_get ws (rv + i);
    do flm <- raw_get ws (st + 2 + i); do frm <- raw_get ws (st + 2 + fd + i);
    do ws <- raw_set ws (3 * fd + i) ((r - l) / 6 * (fl + 4 * fm + fr));
    do ws <- raw_set ws (4 * fd + i) ((mid - l) / 6 * (fl + 4 * flm + fm));
    do y <- raw_get ws (4 * fd + i);
    raw_set ws (4 * fd + i) (y + (r - mid) / 6 * (fm + 4 * frm + fr))) (seq 0 fd) ws.

(** repo: Quadrature.h:593-672: the while(true) loop. The pointers leftFunc, midFunc,
    rightFunc are positions in the workspace. *)
Fixpoint as_loop (q : quad) (f : R -> list R) (lb ub : R) (fuel : nat)
    (ws res : list R) (level : nat) (sg : N) (st lv mv rv : nat) : outcome (list R) :=
  match fuel with
  | O => Fuel
  | S fuel =>
      let fd := q_fdim q in
      do ws <- as_estimate q f ws st lv mv rv;
      do e <- EstimateError q ws (3 * fd) (4 * fd);
      do l <- raw_get ws st;
      do r <- raw_get ws (st + 1);
      if stop_test q lb ub (fst e) (snd e) level then
        do res <- add_fine q ws res;
        do p <- climb level sg;
        let level := fst p in
        if (level =? 0)%nat then Ok res
        else
          let sg := N.lor (snd p) (N.shiftl 1 (N.of_nat level)) in
          let st := as_start fd level in
          let prev := as_start fd (level - 1) in
          do a <- raw_get ws prev;
          do b <- raw_get ws (prev + 1);
          do ws <- raw_set ws st (1/2 * (a + b));
          do b <- raw_get ws (prev + 1);
          do ws <- raw_set ws (st + 1) b;
          do u <- as_UpdateValues fd level sg;
          let '(lv, mv, rv) := u in
          as_loop q f lb ub fuel ws res level sg st lv mv rv
      else
        let level := S level in
        let st' := as_start fd level in
        do ws <- raw_set ws st' l;
        do ws <- raw_set ws (st' + 1) (1/2 * (l + r));
        as_loop q f lb ub fuel ws res level sg st' lv (st + 2) mv
  end.

(** repo: Quadrature.h:552-592. *)
Definition as_Integrate (q : quad) (fuel : nat) (ws : list R) (f : R -> list R) (lb ub : R) (res : list R)
  : outcome (list R) :=
  let fd := q_fdim q in
  do res <- ofold (fun res i => raw_set res i 0) (seq 0 fd) res;
  do ws <- store ws 0 (f lb);
  do ws <- store ws fd (f ub);
  do ws <- store ws (2 * fd) (f (1/2 * (lb + ub)));
  do ws <- raw_set ws (5 * fd) lb;
  do ws <- raw_set ws (5 * fd + 1) ub;
  as_loop q f lb ub fuel ws res 0 0%N (5 * fd) 0 (2 * fd) fd.

(** ** AdaptiveClenshawCurtis *)

Record cc_rules : Type := MkRules { coarsePts : list R; coarseWts : list R; finePts : list R; fineWts : list R }.

(** repo: Quadrature.h:1009-1048, constructor on the host: assert(2^level+1>=3), then the
    rules with 2^level+1 and 2^(level+1)+1 points in freshly allocated views. A failing
    assertion is [Throw] here. *)
Definition ac_make (level : nat) : outcome cc_rules :=
  if (2 ^ level + 1 <? 3)%nat then Throw else
  do c <- GetRule (2 ^ level + 1) (repeat 0 (2 ^ level + 1)) (repeat 0 (2 ^ level + 1));
  do f <- GetRule (2 ^ (level + 1) + 1) (repeat 0 (2 ^ (level + 1) + 1)) (repeat 0 (2 ^ (level + 1) + 1));
  Ok (MkRules (snd c) (fst c) (snd f) (fst f)).

(** repo: Quadrature.h:782. *)
Definition ac_WorkspaceSize (maxSub fdim : nat) : nat := ((maxSub + 5) * fdim + 2 * maxSub)%nat.
Definition ac_start (fdim level : nat) : nat := ((level + 5) * fdim + 2 * level)%nat.

(** repo: Quadrature.h:988-1002 UpdateValues. *)
Definition ac_UpdateValues (fdim level : nat) (sg : N) : outcome (nat * nat) :=
  ofold (fun (p : nat * nat) l =>
    do b <- seg_bit sg (l + 1);
    if b then Ok (((l + 5) * fdim + 2 * (l + 1))%nat, snd p)
    else Ok (fst p, ((l + 5) * fdim + 2 * (l + 1))%nat))
  (seq 0 level) (0%nat, fdim).

(** The odd numbers 1, 3, ... below n: "for(i=1; i<n; i+=2)". *)
Definition odds (n : nat) : list nat := map (fun k => 2 * k + 1)%nat (seq 0 (n / 2)).

(** repo: Quadrature.h:858-908: both estimates over the interval stored at [st]. *)
Definition ac_estimate (q : quad) (rl : cc_rules) (f : R -> list R) (ws : list R) (st lv rv : nat) : outcome (list R) :=
  let fd := q_fdim q in
  do l <- raw_get ws st;
  do r <- raw_get ws (st + 1);
  let mid := 1/2 * (l + r) in
  let scale := 1/2 * (r - l) in
  do ws <- store ws (st + 2) (f mid);
  let cR := (length (coarseWts rl) - 1)%nat in
  let cM := (cR / 2)%nat in
  let fR := (length (fineWts rl) - 1)%nat in
  let fM := (fR / 2)%nat in
  do ws <- ofold (fun ws i =>
    do fl <- raw_get ws (lv + i); do fm <- raw_get ws (st + 2 + i); do fr <- raw_get ws (rv + i);
    do c0 <- raw_get (coarseWts rl) 0; do cm <- raw_get (coarseWts rl) cM; do cr <- raw_get (coarseWts rl) cR;
    do f0 <- raw_get (fineWts rl) 0; do fm' <- raw_get (fineWts rl) fM; do fr' <- raw_get (fineWts rl) fR;
    do ws <- raw_set ws (3 * fd + i) (scale * c0 * fl);
    do x <- raw_get ws (3 * fd + i);
    do ws <- raw_set ws (3 * fd + i) (x + scale * cm * fm);
    do x <- raw_get ws (3 * fd + i);
    do ws <- raw_set ws (3 * fd + i) (x + scale * cr * fr);
    do ws <- raw_set ws (4 * fd + i) (scale * f0 * fl);
    do x <- raw_get ws (4 * fd + i);
    do ws <- raw_set ws (4 * fd + i) (x + scale * fm' * fm);
    do x <- raw_get ws (4 * fd + i);
    raw_set ws (4 * fd + i) (x + scale * fr' * fr)) (seq 0 fd) ws;
  let both := fun ws i =>
    do p <- raw_get (coarsePts rl) i;
    do ws <- store ws (2 * fd) (f (mid + scale * p));
    ofold (fun ws j =>
      do v <- raw_get ws (2 * fd + j);
      do cw <- raw_get (coarseWts rl) i; do x <- raw_get ws (3 * fd + j);
      do ws <- raw_set ws (3 * fd + j) (x + scale * cw * v);
      do fw <- raw_get (fineWts rl) (2 * i); do y <- raw_get ws (4 * fd + j);
      raw_set ws (4 * fd + j) (y + scale * fw * v)) (seq 0 fd) ws in
  do ws <- ofold both (seq 1 (cM - 1)) ws;
  do ws <- ofold both (seq (cM + 1) (cR - (cM + 1))) ws;
  ofold (fun ws i =>
    do p <- raw_get (finePts rl) i;
    do ws <- store ws (2 * fd) (f (mid + scale * p));
    ofold (fun ws j =>
      do v <- raw_get ws (2 * fd + j); do fw <- raw_get (fineWts rl) i; do y <- raw_get ws (4 * fd + j);
      raw_set ws (4 * fd + j) (y + scale * fw * v)) (seq 0 fd) ws)
    (odds (length (finePts rl))) ws.

(** repo: Quadrature.h:852-964: the while(true) loop. *)
Fixpoint ac_loop (q : quad) (rl : cc_rules) (f : R -> list R) (lb ub : R) (fuel : nat)
    (ws res : list R) (level : nat) (sg : N) (st lv rv : nat) : outcome (list R) :=
  match fuel with
  | O => Fuel
  | S fuel =>
      let fd := q_fdim q in
      do ws <- ac_estimate q rl f ws st lv rv;
      do e <- EstimateError q ws (3 * fd) (4 * fd);
      do l <- raw_get ws st;
      do r <- raw_get ws (st + 1);
      if stop_test q lb ub (fst e) (snd e) level then
        do res <- add_fine q ws res;
        do p <- climb level sg;
        let level := fst p in
        if (level =? 0)%nat then Ok res
        else
          let sg := N.lor (snd p) (N.shiftl 1 (N.of_nat level)) in
          let st := ac_start fd level in
          let prev := ac_start fd (level - 1) in
          do a <- raw_get ws prev;
          do b <- raw_get ws (prev + 1);
          do ws <- raw_set ws st (1/2 * (a + b));
          do b <- raw_get ws (prev + 1);
          do ws <- raw_set ws (st + 1) b;
          do u <- ac_UpdateValues fd level sg;
          ac_loop q rl f lb ub fuel ws res level sg st (fst u) (snd u)
      else
        let level := S level in
        let st' := ac_start fd level in
        do ws <- raw_set ws st' l;
        do ws <- raw_set ws (st' + 1) (1/2 * (l + r));
        ac_loop q rl f lb ub fuel ws res level sg st' lv (st + 2)
  end.

(** repo: Quadrature.h:818-851. *)
Definition ac_Integrate (q : quad) (rl : cc_rules) (fuel : nat) (ws : list R) (f : R -> list R) (lb ub : R) (res : list R)
  : outcome (list R) :=
  let fd := q_fdim q in
  do res <- ofold (fun res i => raw_set res i 0) (seq 0 fd) res;
  do ws <- store ws 0 (f lb);
  do ws <- store ws fd (f ub);
  do ws <- raw_set ws (5 * fd) lb;
  do ws <- raw_set ws (5 * fd + 1) ub;
  ac_loop q rl f lb ub fuel ws res 0 0%N (5 * fd) 0 fd.
