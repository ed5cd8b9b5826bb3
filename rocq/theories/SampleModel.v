(** Model of the samplers: SampleGenerator, the Gaussian sampler, PullbackSampler, PushforwardSampler, Distribution.
    Samplers refer to each other by shared pointers, so the objects live in a heap.
    Not modelled: device memory spaces; which numbers Kokkos' generators return. A loop whose iterations run on
    several threads is given by the order of its draws and by the generator that serves each (SpecSample.v). *)
From Coq Require Import Reals.
From Verif Require Import Base SpecSample ExpansionModel BijModel MonoModel MapsModel DensityModel ReduceModel GaussModel.
Local Open Scope R_scope.

Section Samplers.
(** Kokkos::Random_XorShift64_Pool: the state of one generator, the generators a pool starts with, one draw. *)
Variable gen : Type.
Variable init : nat -> list gen.
Variable normal : gen -> R * gen.

(** "output(i,j) = f(i, rgen.normal())" for all i and j *)
Definition fill (f : nat -> R -> outcome R) (st : list gen * list (list R)) (v : nat * nat * nat) : outcome (list gen * list (list R)) :=
  let '(j, i, g) := v in
  do s <- raw_get (fst st) g;
  let (z, s') := normal s in
  do pool <- raw_set (fst st) g s';
  do x <- f i z;
  do col <- raw_get (snd st) j;
  do col <- raw_set col i x;
  do cols <- raw_set (snd st) j col;
  Ok (pool, cols).
(** repo: GaussianSamplerDensity.cpp:82-135; LinearAlgebra.cpp:100-109. [multiplyL] works on columns. *)
Definition ga_SampleImpl (G : gauss) (pl : plan) (pool : list gen) (output : matrix) : outcome (list gen * matrix) :=
  if negb (mx_rows output =? ga_dim G)%nat then Throw else
  if ga_idCov G then
    do r <- ofold (fill (fun i z => if (length (ga_mean G) =? 0)%nat then Ok z else do m <- raw_get (ga_mean G) i; Ok (z + m))) pl (pool, mx_cols output);
    Ok (fst r, same_layout output (snd r))
  else
    do cols <- as_left output;
    do r <- ofold (fill (fun i z => Ok z)) pl (pool, cols);
    do mul <- omap (chol_apply ch_mulL (ga_chol G)) (snd r);
    do out <- omap (ga_shift (fun p => p) Rplus G (mx_rows output)) mul;
    Ok (fst r, same_layout output out).

(** The members of a sampler object: dim_, rand_pool and what the derived class adds.
    repo: SampleGenerator.h:70-81; PullbackSampler.h:58-66; PushforwardSampler.h:60-68 *)
Inductive kind : Type :=
| KGauss (G : gauss)
| KPull (M : mapobj) (ref : nat)
| KPush (M : mapobj) (ref : nat).
Record sampler : Type := MkSampler { sm_dim : nat; sm_pool : list gen; sm_kind : kind }.
Definition heap := list sampler.
Definition with_pool (s : sampler) (p : list gen) : sampler := MkSampler (sm_dim s) p (sm_kind s).

(** repo: SampleGenerator.h:28; GaussianSamplerDensity.cpp:5-19. [time] is what time(NULL) returns. *)
Definition new_gauss (time : nat) (G : gauss) (h : heap) : heap := h ++ [MkSampler (ga_dim G) (init time) (KGauss G)].
(** repo: PullbackSampler.h:27-35; PushforwardSampler.h:28-36 *)
Definition new_transport (mk : mapobj -> nat -> kind) (time : nat) (M : mapobj) (ref : nat) (h : heap) : outcome heap :=
  do s <- raw_get h ref;
  if negb (m_out (o_map M) =? sm_dim s)%nat then Throw else
  if negb (m_in (o_map M) =? m_out (o_map M))%nat then Throw else
  Ok (h ++ [MkSampler (sm_dim s) (init time) (mk M ref)]).
Definition new_pullback := new_transport KPull.
Definition new_pushforward := new_transport KPush.

(** repo: SampleGenerator.h:55-57; PullbackSampler.h:54-57; PushforwardSampler.h:55-58. The fuel bounds the length of
    the chain of samplers; a sampler is built after the one it refers to. *)
Fixpoint SetSeed_ (fuel : nat) (seed : nat) (k : nat) (h : heap) : outcome heap :=
  match fuel with
  | O => Fuel
  | S fuel =>
    do s <- raw_get h k;
    do h <- raw_set h k (with_pool s (init seed));
    match sm_kind s with
    | KGauss _ => Ok h
    | KPull _ ref | KPush _ ref => SetSeed_ fuel seed ref h
    end
  end.
(** repo: GaussianSamplerDensity.cpp:82-135; PullbackSampler.h:42-47; PushforwardSampler.h:43-47; SampleGenerator.h:44-48 *)
Fixpoint SampleImpl_ (fuel : nat) (pl : plan) (k : nat) (output : matrix) (h : heap) : outcome (heap * matrix) :=
  match fuel with
  | O => Fuel
  | S fuel =>
    do s <- raw_get h k;
    match sm_kind s with
    | KGauss G =>
      do r <- ga_SampleImpl G pl (sm_pool s) output;
      do h <- raw_set h k (with_pool s (fst r));
      Ok (h, snd r)
    | KPull M ref =>
      do rs <- raw_get h ref;
      let N := length (mx_cols output) in
      do hp <- SampleImpl_ fuel pl ref (alloc_mat (sm_dim rs) N) h;
      do cols <- each2 (m_inv (o_map M) (o_c M)) (mx_cols (alloc_mat 0 (length (mx_cols (snd hp))))) (mx_cols (snd hp)) (mx_cols output);
      Ok (fst hp, same_layout output cols)
    | KPush M ref =>
      do rs <- raw_get h ref;
      let N := length (mx_cols output) in
      do hp <- SampleImpl_ fuel pl ref (alloc_mat (sm_dim rs) N) h;
      do cols <- each (m_eval (o_map M) (o_c M)) (mx_cols (snd hp)) (mx_cols output);
      Ok (fst hp, same_layout output cols)
    end
  end.
Definition SetSeed (seed k : nat) (h : heap) : outcome heap := SetSeed_ (S k) seed k h.
Definition SampleImpl (pl : plan) (k : nat) (output : matrix) (h : heap) : outcome (heap * matrix) := SampleImpl_ (S k) pl k output h.
(** repo: SampleGenerator.h:44-48 *)
Definition Sample (pl : plan) (k N : nat) (h : heap) : outcome (heap * matrix) :=
  do s <- raw_get h k; SampleImpl pl k (alloc_mat (sm_dim s) N) h.

(** Distribution: a sampler and a density. repo: Distribution.h:26-31; 38-107 forward to the two members *)
Record distribution : Type := MkDist { ds_sampler : nat; ds_density : density }.
Definition new_distribution (k : nat) (D : density) (h : heap) : outcome distribution :=
  do s <- raw_get h k;
  if negb (sm_dim s =? d_dim D)%nat then Throw else Ok (MkDist k D).
Definition ds_Sample (pl : plan) (B : distribution) (N : nat) (h : heap) : outcome (heap * matrix) := Sample pl (ds_sampler B) N h.
Definition ds_SetSeed (seed : nat) (B : distribution) (h : heap) : outcome heap := SetSeed seed (ds_sampler B) h.
Definition ds_LogDensity (B : distribution) (X : matrix) : outcome (list dbl) := d_LogDensity (ds_density B) X.

(** What a program does with samplers: build them, seed them, sample from them. A call that throws may already
    have advanced some generators ([op_throws]). *)
Inductive op : Type :=
| OGauss (time : nat) (G : gauss)
| OPull (time : nat) (M : mapobj) (ref : nat)
| OPush (time : nat) (M : mapobj) (ref : nat)
| OSeed (k seed : nat)
| OSample (k N : nat) (pl : plan)
| OSampleImpl (k : nat) (out : matrix) (pl : plan).
Definition step (h : heap) (o : op) : outcome heap :=
  match o with
  | OGauss t G => Ok (new_gauss t G h)
  | OPull t M r => new_pullback t M r h
  | OPush t M r => new_pushforward t M r h
  | OSeed k s => SetSeed s k h
  | OSample k N pl => do r <- Sample pl k N h; Ok (fst r)
  | OSampleImpl k out pl => do r <- SampleImpl pl k out h; Ok (fst r)
  end.
(** The same objects, whose generators may be in other states. *)
Definition same_objects (h h' : heap) : Prop :=
  Forall2 (fun s s' => sm_dim s = sm_dim s' /\ sm_kind s = sm_kind s' /\ length (sm_pool s) = length (sm_pool s')) h h'.
Inductive runs : heap -> list op -> heap -> Prop :=
| run_nil h : runs h [] h
| run_ok h o h1 os h2 : step h o = Ok h1 -> runs h1 os h2 -> runs h (o :: os) h2
| op_throws h o h1 os h2 : step h o = Throw -> same_objects h h1 -> runs h1 os h2 -> runs h (o :: os) h2.
End Samplers.
