(** Model of the PyTorch layers: bindings/python/package/torch.py and torch_helpers.py, with the part of the
    pybind11 wrappers they call. PyTorch itself is modelled by what its documentation promises: saved tensors are
    kept alive until the backward pass and refused if they were changed in place, a backward pass cannot be repeated
    unless the graph is retained, and outputs a loss does not use arrive in the backward pass as zeros.
    Simplifications: matrices are lists of columns (one per point; any strides can be read, C67); coefficient tensors
    are contiguous vectors; the points are values, not tensors that could be changed in place; devices other than the
    CPU and dtypes other than float64 and float32 are left out; a float32 is rounded by [rnd] when it is stored. *)
From Coq Require Import Reals.
From Verif Require Import Base ExpansionModel BijModel MonoModel MapsModel DensityModel.
Local Open Scope R_scope.

(** A coefficient tensor: entries, dtype, requires_grad, PyTorch's version counter, and whether a name still refers to it. *)
Record tensor : Type := MkT { t_data : list R; t_f64 : bool; t_grad : bool; t_version : nat; t_user : bool }.
(** The coefficients of the map object: never set, its own array, or the memory of a tensor. repo: ParameterizedFunctionBase.h savedCoeffs *)
Inductive held : Type := Unset | Own (c : list R) | At (id : nat).
(** What a forward pass leaves behind for the backward pass. repo: torch_helpers.py:43-45 (ctx) *)
Record node : Type := MkNode { n_x : list (list R); n_f64 : bool; n_xgrad : bool; n_c : option nat; n_version : nat; n_logdet : bool; n_live : bool }.
Record world : Type := MkW { w_ts : list tensor; w_f : held; w_nodes : list node }.
(** How a call ends. *)
Inductive answer (A : Type) : Type := Returned (a : A) | Raised | Undefined.
Arguments Returned {A}. Arguments Raised {A}. Arguments Undefined {A}.
Definition answer_of {A} (r : outcome A) : answer A := match r with Ok a => Returned a | Throw => Raised | _ => Undefined end.
Definition amap {A B} (f : A -> B) (r : answer A) : answer B := match r with Returned a => Returned (f a) | Raised => Raised | Undefined => Undefined end.

Definition saves (id : nat) (n : node) : bool := n_live n && match n_c n with Some k => (k =? id)%nat | None => false end.
(** A tensor's memory is kept while a name or a pending backward pass refers to it. *)
Definition alive (w : world) (id : nat) : bool :=
  match nth_error (w_ts w) id with Some t => t_user t || existsb (saves id) (w_nodes w) | None => false end.
Definition data_of (w : world) (id : nat) : list R := match nth_error (w_ts w) id with Some t => t_data t | None => [] end.
(** The entries the map reads. *)
Definition f_coeffs (w : world) : outcome (list R) :=
  match w_f w with Unset => Ok [] | Own c => Ok c | At id => if alive w id then Ok (data_of w id) else UB end.
Definition set_f (w : world) (h : held) : world := MkW (w_ts w) h (w_nodes w).
Definition set_t (w : world) (id : nat) (t : tensor) : world := MkW (upd (w_ts w) id t) (w_f w) (w_nodes w).
Definition unname (t : tensor) : tensor := MkT (t_data t) (t_f64 t) (t_grad t) (t_version t) false.

(** tensor.double(): the tensor itself, or a new one. *)
Definition double_ (w : world) (id : nat) : world * nat :=
  match nth_error (w_ts w) id with
  | Some t => if t_f64 t then (w, id) else (MkW (w_ts w ++ [MkT (t_data t) true false 0 true]) (w_f w) (w_nodes w), length (w_ts w))
  | None => (w, id)
  end.
(** Local variables of a python function disappear when it ends: the tensors made since there were [n] of them. *)
Definition leave (n : nat) (w : world) : world := MkW (firstn n (w_ts w) ++ map unname (skipn n (w_ts w))) (w_f w) (w_nodes w).

Section Layer.
Variables (K : cmap) (rnd : R -> R).
Definition cast (f64 : bool) (v : R) : R := if f64 then v else rnd v.
Definition dcast (f64 : bool) (v : dbl) : dbl := match v with Fin r => Fin (cast f64 r) | _ => v end.
Definition cols0 (r n : nat) : list (list R) := repeat (fresh r) n.

(** ExtractTorchTensorData and WrapCoeffs. repo: torch_helpers.py:21-30, ParameterizedFunctionBase.cpp:209-218 *)
Definition wrap (w : world) (id : nat) : option world :=
  if (length (data_of w id) =? m_nc K)%nat then Some (set_f w (At id)) else None.

(** The common start of both passes: "if coeffs is not None: coeffs_dbl = coeffs.double(); f.WrapCoeffs(...)". None is an
    exception. repo: torch_helpers.py:47-50, 69-72 *)
Definition install (w : world) (c : option nat) : world * bool :=
  match c with
  | None => (w, true)
  | Some id => let '(w, d) := double_ w id in match wrap w d with Some w => (w, true) | None => (w, false) end
  end.

(** repo: torch_helpers.py:51-61 *)
Definition forward_values (w : world) (x : list (list R)) (f64 logdet : bool) : outcome (list (list R) * option (list dbl)) :=
  do c <- f_coeffs w;
  do y <- each (m_eval K c) x (cols0 (m_out K) (length x));
  let y := map (map (cast f64)) y in
  if logdet then do l <- each_logdet (m_logdet K c) x; Ok (y, Some (map (dcast f64) l)) else Ok (y, None).
(** MpartTorchAutograd.apply(x, coeffs, f, return_logdet); the new node is the last one. repo: torch_helpers.py:42-61 *)
Definition apply_ (w : world) (x : list (list R)) (f64 xgrad : bool) (c : option nat) (logdet : bool) : world * answer (list (list R) * option (list dbl)) :=
  let n := length (w_ts w) in
  let '(w, ok) := install w c in
  if ok then
    let r := answer_of (forward_values w x f64 logdet) in
    let v := match c with Some id => match nth_error (w_ts w) id with Some t => t_version t | None => 0%nat end | None => 0%nat end in
    let w := leave n w in
    match r with
    | Returned y => (MkW (w_ts w) (w_f w) (w_nodes w ++ [MkNode x f64 xgrad c v logdet true]), r)
    | _ => (w, r)
    end
  else (leave n w, Raised).

(** "grad += grad2*logdet_sens[None,:]"; "sum(axis=1)" *)
Fixpoint add_scaled (g g2 : list (list R)) (l : list R) : list (list R) :=
  match g, g2, l with
  | a :: g, b :: g2, k :: l => map (fun p => fst p + k * snd p) (combine a b) :: add_scaled g g2 l
  | _, _, _ => []
  end.
Fixpoint scale_cols (g : list (list R)) (l : list R) : list (list R) :=
  match g, l with a :: g, k :: l => map (Rmult k) a :: scale_cols g l | _, _ => [] end.
Definition row_sums (n : nat) (g : list (list R)) : list R := map (fun i => fold_right Rplus 0 (map (fun col => nth i col 0) g)) (seq 0 n).
Definition tadd (a b : list R) : list R := map (fun p => fst p + snd p) (combine a b).

(** repo: torch_helpers.py:75-112 *)
Definition backward_values (w : world) (N : node) (cgrad : bool) (s : list (list R)) (l : option (list R)) : outcome (option (list (list R)) * option (list R)) :=
  let x := n_x N in let n := length x in
  do c <- f_coeffs w;
  do gx <- (if n_xgrad N then
      do g <- each2 (m_grad K c) x s (cols0 (m_in K) n);
      match l with
      | Some l => do g2 <- each (m_ldi K c) x (cols0 (m_in K) n); Ok (Some (add_scaled g g2 l))
      | None => Ok (Some g)
      end
    else Ok None);
  do gc <- (if cgrad then
      do g <- each2 (m_cgrad K c) x s (cols0 (m_nc K) n);
      let g := row_sums (m_nc K) g in
      match l with
      | Some l => do g2 <- each (m_ldc K c) x (cols0 (m_nc K) n); Ok (Some (tadd g (row_sums (m_nc K) (scale_cols g2 l))))
      | None => Ok (Some g)
      end
    else Ok None);
  Ok (option_map (map (map (cast (n_f64 N)))) gx, option_map (map (cast (n_f64 N))) gc).
(** The backward pass of node [k] with the sensitivities of the outputs the loss uses; [retain] keeps the graph.
    The engine converts the coefficient gradient to the dtype of the coefficients. repo: torch_helpers.py:63-114 *)
Definition backward_ (w : world) (k : nat) (s : option (list (list R))) (l : option (list R)) (retain : bool) : world * answer (option (list (list R)) * option (list R)) :=
  match nth_error (w_nodes w) k with
  | None => (w, Raised)
  | Some N =>
    let t := match n_c N with Some id => nth_error (w_ts w) id | None => None end in
    if negb (n_live N) then (w, Raised) else
    if match t with Some t => negb (t_version t =? n_version N)%nat | None => false end then (w, Raised) else
    let n := length (n_x N) in
    let s := match s with Some s => s | None => cols0 (m_out K) n end in
    let l := if n_logdet N then Some (match l with Some l => l | None => repeat 0 n end) else None in
    let m := length (w_ts w) in
    let '(w, ok) := install w (n_c N) in
    if ok then
      let r := answer_of (backward_values w N (match t with Some t => t_grad t | None => false end) s l) in
      let w := leave m w in
      let r := amap (fun g => (fst g, option_map (map (cast (match t with Some t => t_f64 t | None => true end))) (snd g))) r in
      match r with
      | Returned _ => (MkW (w_ts w) (w_f w) (upd (w_nodes w) k (MkNode (n_x N) (n_f64 N) (n_xgrad N) (n_c N) (n_version N) (n_logdet N) retain)), r)
      | _ => (w, r)
      end
    else (leave m w, Raised)
  end.

(** * The modules *)
(** The stored parameter, if any; "torch.tensor(f.CoeffMap())" copies. repo: torch.py:10-20, 40-50 *)
Definition make_module (w : world) (store f64 : bool) : world * answer (option nat) :=
  if store then
    match f_coeffs w with
    | Ok c => if (m_nc K =? 0)%nat || match w_f w with Unset => false | _ => (length c =? m_nc K)%nat end
              then (MkW (w_ts w ++ [MkT (map (cast f64) c) f64 true 0 true]) (w_f w) (w_nodes w), Returned (Some (length (w_ts w))))
              else (w, Raised)
    | _ => (w, Undefined)
    end
  else (w, Returned None).
(** The argument, or the stored parameter. repo: torch.py:54-58 *)
Definition choose_coeffs (self arg : option nat) : option nat := match arg with Some c => Some c | None => self end.
(** TorchConditionalMapBase.forward and TorchParameterizedFunctionBase.forward ([checks] is false): the first checks shapes.
    repo: torch.py:22-30, 52-67, 97-110. Not modelled: points whose numbers of columns differ. *)
Definition shapes_ok (w : world) (x : list (list R)) (c : nat) : bool :=
  forallb (fun p => (length p =? m_in K)%nat) x && (length (data_of w c) =? m_nc K)%nat.
Definition module_forward (checks logdet : bool) (self : option nat) (w : world) (x : list (list R)) (f64 xgrad : bool) (arg : option nat) :=
  match choose_coeffs self arg with
  | None => (w, Raised)
  | Some c => if checks && negb (shapes_ok w x c) then (w, Raised) else apply_ w x f64 xgrad (Some c) logdet
  end.
(** repo: torch.py:69-94. The coefficients are installed before the shapes are checked; InverseImpl always gets all inputs. *)
Definition module_inverse (self : option nat) (w : world) (x r : list (list R)) (f64 : bool) (arg : option nat) : world * answer (list (list R)) :=
  match choose_coeffs self arg with
  | None => (w, Raised)
  | Some c =>
    let n := length (w_ts w) in
    let '(w, ok) := install w (Some c) in
    if ok then
      let short := forallb (fun p => (negb (length (fst p) =? m_in K) && (length (fst p) + length (snd p) =? m_in K))%nat) (combine x r) in
      let x := if short && (length x =? length r)%nat then map (fun p => fst p ++ snd p) (combine x r) else x in
      let fit := forallb (fun p => (length p =? m_in K)%nat) x && forallb (fun p => (length p =? m_out K)%nat) r in
      let y := if fit then answer_of (do c <- f_coeffs w; each2 (m_inv K c) x r (cols0 (m_out K) (length x))) else Raised in
      (leave n w, amap (map (map (cast f64))) y)
    else (leave n w, Raised)
  end.

(** * What else may happen between the passes *)
(** f.SetCoeffs(c): writes into the array the map has, if it has one. repo: ParameterizedFunctionBase.cpp:188-207 *)
Definition f_SetCoeffs (w : world) (c : list R) : world * answer unit :=
  match w_f w with
  | Unset => (set_f w (Own c), Returned tt)
  | Own _ => if (length c =? m_nc K)%nat then (set_f w (Own c), Returned tt) else (w, Raised)
  | At id =>
    if negb (length c =? m_nc K)%nat then (w, Raised) else
    match nth_error (w_ts w) id with
    | Some t => if alive w id then (set_t w id (MkT c (t_f64 t) (t_grad t) (t_version t) (t_user t)), Returned tt) else (w, Undefined)
    | None => (w, Undefined)
    end
  end.
(** f.Evaluate(x). repo: ParameterizedFunctionBase.cpp:27-34, 333-349; a dangling array still has its size. *)
Definition f_Evaluate (w : world) (x : list (list R)) : answer (list (list R)) :=
  let sized := match w_f w with Unset => false | Own c => (length c =? m_nc K)%nat | At id => (length (data_of w id) =? m_nc K)%nat end in
  if (m_nc K =? 0)%nat || sized then answer_of (do c <- f_coeffs w; each (m_eval K c) x (cols0 (m_out K) (length x))) else Raised.

(** One step of a program, as far as it matters here. *)
Inductive event : Type :=
| NewTensor (d : list R) (f64 grad : bool)
| InPlace (id : nat) (d : list R)
| Forget (id : nat)
| Discard (k : nat)
| Forward (x : list (list R)) (f64 xgrad : bool) (c : option nat) (logdet : bool)
| Backward (k : nat) (s : option (list (list R))) (l : option (list R)) (retain : bool)
| ModuleForward (checks logdet : bool) (self : option nat) (x : list (list R)) (f64 xgrad : bool) (arg : option nat)
| ModuleInverse (self : option nat) (x r : list (list R)) (f64 : bool) (arg : option nat)
| MakeModule (store f64 : bool)
| MapEvaluate (x : list (list R))
| MapSetCoeffs (c : list R).
(** An in-place update of a tensor, for instance by an optimiser, counts up its version. *)
Definition in_place (w : world) (id : nat) (d : list R) : world :=
  match nth_error (w_ts w) id with
  | Some t => if t_user t && (length d =? length (t_data t))%nat then set_t w id (MkT d (t_f64 t) (t_grad t) (S (t_version t)) true) else w
  | None => w
  end.
Definition forget (w : world) (id : nat) : world := match nth_error (w_ts w) id with Some t => set_t w id (unname t) | None => w end.
(** The outputs of a forward pass are dropped, and with them what it saved. *)
Definition discard (w : world) (k : nat) : world :=
  match nth_error (w_nodes w) k with
  | Some N => MkW (w_ts w) (w_f w) (upd (w_nodes w) k (MkNode (n_x N) (n_f64 N) (n_xgrad N) (n_c N) (n_version N) (n_logdet N) false))
  | None => w
  end.
Definition step (w : world) (e : event) : world :=
  match e with
  | NewTensor d f64 grad => MkW (w_ts w ++ [MkT d f64 grad 0 true]) (w_f w) (w_nodes w)
  | InPlace id d => in_place w id d
  | Forget id => forget w id
  | Discard k => discard w k
  | Forward x f64 xgrad c logdet => fst (apply_ w x f64 xgrad c logdet)
  | Backward k s l retain => fst (backward_ w k s l retain)
  | ModuleForward checks logdet self x f64 xgrad arg => fst (module_forward checks logdet self w x f64 xgrad arg)
  | ModuleInverse self x r f64 arg => fst (module_inverse self w x r f64 arg)
  | MakeModule store f64 => fst (make_module w store f64)
  | MapEvaluate x => w
  | MapSetCoeffs c => fst (f_SetCoeffs w c)
  end.
Definition run (w : world) (l : list event) : world := fold_left step l w.
End Layer.
