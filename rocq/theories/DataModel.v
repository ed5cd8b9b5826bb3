(** Model of who owns the arrays a program hands to the library: training and test samples of an
    objective, the matrix and offset of an affine map, in C++ and in the three bindings.
    Not modelled: device memory; complex or single precision MATLAB arrays; arrays of which the program
    hands over a part; the coefficient vectors of maps, which are HeapModel.v. *)
From Coq Require Import Reals.
From Verif Require Import Base ExpansionModel MonoModel MapsModel LeafModel DensityModel ReduceModel GaussModel ObjectiveModel.

Inductive lang := Cpp | Python | Julia | Matlab.
(** What an array holds: samples (one per column), the rows of a matrix, or a vector. *)
Inductive content := Samples (m : matrix) | Rows (A : list (list R)) | Numbers (b : list R).
(** [ar_data] is [None] once the memory is released; [ar_user]: the program still has the array;
    [ar_counted]: the memory was allocated by Kokkos, which counts references and releases it with the
    last one. Arrays of numpy, Julia and MATLAB are not counted: the language releases them. *)
Record array : Type := MkArr { ar_data : option content; ar_user : bool; ar_counted : bool }.
(** A KLObjective with views of its samples, and an affine map with views of its matrix and offset.
    [counting]: the views hold references. [f] has the extents and the factorisation.
    repo: MapObjective.h:23-33, 155-195; AffineMap.h *)
Inductive obj :=
| KL (counting : bool) (dim train : nat) (test : option nat)
| Aff (f : affine) (A b : option nat).
Record world : Type := MkW { w_arrays : list array; w_objs : list (option obj) }.

Definition opt_list (a : option nat) : list nat := match a with Some a => [a] | None => [] end.
(** The arrays an object holds references to. *)
Definition refs (o : obj) : list nat :=
  match o with
  | KL true _ t te => t :: opt_list te
  | KL false _ _ _ => []
  | Aff _ A b => opt_list A ++ opt_list b
  end.
Definition live (objs : list (option obj)) (a : nat) : bool :=
  existsb (fun o => match o with Some o => existsb (Nat.eqb a) (refs o) | None => false end) objs.
(** Release of memory: when nobody has the array; references count only for counted memory. *)
Definition release (objs : list (option obj)) (a : nat) (x : array) : array :=
  if ar_user x || (ar_counted x && live objs a) then x else MkArr None false (ar_counted x).
Fixpoint mapi {A B} (f : nat -> A -> B) (n : nat) (l : list A) : list B :=
  match l with [] => [] | a :: l => f n a :: mapi f (S n) l end.
Definition collect (w : world) : world := MkW (mapi (release (w_objs w)) 0 (w_arrays w)) (w_objs w).

(** Writes in place keep the shape. *)
Definition same_shape (c c' : content) : Prop :=
  match c, c' with
  | Samples m, Samples m' => mx_rows m = mx_rows m' /\ length (mx_cols m) = length (mx_cols m')
  | Rows A, Rows A' => length A = length A' /\ ncols A = ncols A'
  | Numbers b, Numbers b' => length b = length b'
  | _, _ => False
  end.

(** The samples, rows or numbers in an array the program has. *)
Definition user_data (w : world) (a : nat) : option content :=
  match nth_error (w_arrays w) a with Some x => if ar_user x then ar_data x else None | None => None end.
Definition user_samples (w : world) (a : nat) : option matrix :=
  match user_data w a with Some (Samples m) => Some m | _ => None end.
Definition user_rows (w : world) (a : nat) : option (list (list R)) :=
  match user_data w a with Some (Rows A) => Some A | _ => None end.
Definition user_numbers (w : world) (a : nat) : option (list R) :=
  match user_data w a with Some (Numbers b) => Some b | _ => None end.
(** An optional argument. *)
Definition opt_arg {A} (f : nat -> option A) (a : option nat) : option (option A) :=
  match a with None => Some None | Some a => match f a with Some x => Some (Some x) | None => None end end.

(** Memory allocated by the library, with the values of the caller's array. *)
Definition own (c : content) : array := MkArr (Some c) false true.
Definition copy_mat (m : matrix) : matrix := right_mat (mx_rows m) (mx_cols m).
(** repo: MapObjective.cpp:38-50: the dimension of the density when none is given. *)
Definition kl_dim (m : matrix) (dim : nat) : nat := if (dim =? 0)%nat then mx_rows m else dim.

(** CreateGaussianKLObjective.
    - C++: the objective keeps the views (MapObjective.h:43, 51). They hold references to counted memory.
    - Python (bindings/python/src/MapObjective.cpp:31-48) and Julia (bindings/julia/src/MapObjective.cpp:28-45)
      copy the samples into new views and pass those on.
    - MATLAB (bindings/matlab/src/MapObjective_mex.cpp:19-41): views of MATLAB's memory
      (MexArrayConversions.cpp:37-57, without references) go to the objective as they are. *)
Definition make_kl (l : lang) (w : world) (t : nat) (te : option nat) (dim : nat) : option world :=
  match user_samples w t, opt_arg (user_samples w) te with
  | Some m, Some mt =>
    match l with
    | Cpp => Some (MkW (w_arrays w) (w_objs w ++ [Some (KL true (kl_dim m dim) t te)]))
    | Python | Julia =>
      let a := length (w_arrays w) in
      match mt with
      | None => Some (MkW (w_arrays w ++ [own (Samples (copy_mat m))]) (w_objs w ++ [Some (KL true (kl_dim m dim) a None)]))
      | Some mt => Some (MkW (w_arrays w ++ [own (Samples (copy_mat m)); own (Samples (copy_mat mt))])
                             (w_objs w ++ [Some (KL true (kl_dim m dim) a (Some (S a)))]))
      end
    | Matlab => Some (MkW (w_arrays w) (w_objs w ++ [Some (KL false (kl_dim m dim) t te)]))
    end
  | _, _ => None
  end.

(** AffineMap: every constructor copies (AffineMap.cpp:10-40), and the bindings pass views of the
    caller's memory to it (bindings/python/src/AffineMap.cpp:19-33, bindings/julia/src/AffineMap.cpp,
    bindings/matlab/src/ConditionalMap_mex.cpp:82-114). *)
Section Lib.
Variable lib : list (list R) -> LU.
Definition make_affine (w : world) (A b : option nat) : option world :=
  let n := length (w_arrays w) in
  match opt_arg (user_rows w) A, opt_arg (user_numbers w) b with
  | Some (Some A), Some (Some b) =>
    match aff_ctor_Ab lib A b with
    | Ok f => Some (MkW (w_arrays w ++ [own (Rows A); own (Numbers b)]) (w_objs w ++ [Some (Aff f (Some n) (Some (S n)))]))
    | _ => None
    end
  | Some (Some A), Some None =>
    match aff_ctor_A lib A with
    | Ok f => Some (MkW (w_arrays w ++ [own (Rows A)]) (w_objs w ++ [Some (Aff f (Some n) None)]))
    | _ => None
    end
  | Some None, Some (Some b) =>
    Some (MkW (w_arrays w ++ [own (Numbers b)]) (w_objs w ++ [Some (Aff (aff_make_b b) None (Some n))]))
  | _, _ => None
  end.

(** What a program does: new arrays, writes in place, the end of a variable, new objects, the end of an
    object. Calls on objects do not change arrays. *)
Inductive event :=
| New (c : content) (counted : bool)
| Write (a : nat) (c : content)
| Drop (a : nat)
| MakeKL (l : lang) (train : nat) (test : option nat) (dim : nat)
| MakeAffine (A b : option nat)
| Destroy (k : nat).

Inductive step : world -> event -> world -> Prop :=
| s_new w c counted : step w (New c counted) (MkW (w_arrays w ++ [MkArr (Some c) true counted]) (w_objs w))
| s_write w a x c0 c : nth_error (w_arrays w) a = Some x -> ar_user x = true -> ar_data x = Some c0 -> same_shape c0 c ->
    step w (Write a c) (MkW (upd (w_arrays w) a (MkArr (Some c) true (ar_counted x))) (w_objs w))
| s_drop w a x : nth_error (w_arrays w) a = Some x -> ar_user x = true ->
    step w (Drop a) (collect (MkW (upd (w_arrays w) a (MkArr (ar_data x) false (ar_counted x))) (w_objs w)))
| s_kl w l t te dim w' : make_kl l w t te dim = Some w' -> step w (MakeKL l t te dim) w'
| s_affine w A b w' : make_affine w A b = Some w' -> step w (MakeAffine A b) w'
| s_destroy w k o : nth_error (w_objs w) k = Some (Some o) ->
    step w (Destroy k) (collect (MkW (w_arrays w) (upd (w_objs w) k None))).
Inductive run : world -> list event -> world -> Prop :=
| run_nil w : run w [] w
| run_cons w e w1 es w2 : step w e w1 -> run w1 es w2 -> run w (e :: es) w2.
End Lib.

(** What the library reads through a view; reading released memory is undefined. Where a view has no
    elements nothing is read; that case is not told apart. *)
Definition lib_samples (w : world) (a : nat) : outcome matrix :=
  match nth_error (w_arrays w) a with
  | Some x => match ar_data x with Some (Samples m) => Ok m | _ => UB end
  | None => UB
  end.
Definition lib_rows (w : world) (a : option nat) : outcome (list (list R)) :=
  match a with
  | None => Ok []
  | Some a => match nth_error (w_arrays w) a with
              | Some x => match ar_data x with Some (Rows m) => Ok m | _ => UB end
              | None => UB
              end
  end.
Definition lib_numbers (w : world) (a : option nat) : outcome (list R) :=
  match a with
  | None => Ok []
  | Some a => match nth_error (w_arrays w) a with
              | Some x => match ar_data x with Some (Numbers m) => Ok m | _ => UB end
              | None => UB
              end
  end.

Section Calls.
Variables (s1 s2 sch : nat -> sched).
(** The objective at the time of a call that uses the training samples, and of one that uses the test samples. *)
Definition at_train (w : world) (k : nat) : outcome objective :=
  match nth_error (w_objs w) k with
  | Some (Some (KL _ dim t _)) => do m <- lib_samples w t; Ok (MkObjective m no_matrix (gauss_density (gauss_std dim) sch))
  | _ => UB
  end.
Definition at_test (w : world) (k : nat) : outcome objective :=
  match nth_error (w_objs w) k with
  | Some (Some (KL _ dim _ None)) => Ok (MkObjective no_matrix no_matrix (gauss_density (gauss_std dim) sch))
  | Some (Some (KL _ dim _ (Some te))) => do m <- lib_samples w te; Ok (MkObjective no_matrix m (gauss_density (gauss_std dim) sch))
  | _ => UB
  end.
(** repo: MapObjective.cpp:14-36, TrainMap.cpp:59-103. No other thread runs the program meanwhile. *)
Definition call_TrainError (w : world) (k : nat) (M : mapobj) : outcome dbl := do ob <- at_train w k; TrainError s1 ob M.
Definition call_TestError (w : world) (k : nat) (M : mapobj) : outcome dbl := do ob <- at_test w k; TestError s1 ob M.
Definition call_TrainCoeffGrad (w : world) (k : nat) (M : mapobj) : outcome (list dbl) := do ob <- at_train w k; TrainCoeffGrad s2 ob M.
Definition call_TrainMap (alg : list R -> optimiser) (w : world) (k : nat) (M : mapobj) : outcome (mapobj * option dbl) :=
  do ob <- at_train w k; TrainMap s1 s2 alg ob M.
End Calls.

(** The affine map as its calls see it. *)
Definition at_affine (w : world) (k : nat) : outcome cmap :=
  match nth_error (w_objs w) k with
  | Some (Some (Aff f A b)) =>
    do A <- lib_rows w A; do b <- lib_numbers w b;
    Ok (aff_map (MkAff A b (af_in f) (af_out f) (af_lu f) (af_logdet f)))
  | _ => UB
  end.
