(** Model of coefficient storage: the arrays, the views the map objects keep of them
    (savedCoeffs) and the calls that move them around. repo: src/ParameterizedFunctionBase.cpp,
    TriangularMap.cpp, ComposedMap.cpp, SummarizedMap.cpp. Coefficients are not interpreted, so
    they belong to an arbitrary type [A] with a value [zero] that Kokkos writes into new arrays.
    Kokkos keeps an array alive while a view refers to it; arrays wrapped through Eigen are
    assumed to outlive the map. *)
From Verif Require Import Base.

Section Heap.
Context {A : Type} (zero : A).

(** A one-dimensional array; [ar_user] records whether the caller or the library allocated it. *)
Record array : Type := MkArr { ar_user : bool; ar_data : list A }.
(** Kokkos::View<double*>: array, first position, extent. *)
Record view : Type := MkView { v_arr : nat; v_off : nat; v_len : nat }.
(** A map object: numCoeffs, the component maps (none for a map that reads its coefficients
    itself), whether the single component gets the whole vector (SummarizedMap) or each component
    gets its slice (TriangularMap, ComposedMap), and savedCoeffs (None when not allocated). *)
Record object : Type := MkObj { o_nc : nat; o_kids : list nat; o_whole : bool; o_saved : option view }.
Record state : Type := MkSt { arrs : list array; objs : list object }.

(** Result of a call. An exception leaves the state as it was when thrown; a failed assertion ends
    the program. *)
Inductive result : Type := Done (s : state) | Threw (s : state) | Abort | Undef.
Definition rbind (r : result) (f : state -> result) : result :=
  match r with Done s => f s | _ => r end.

Definition data (s : state) (a : nat) : list A := match nth_error (arrs s) a with Some r => ar_data r | None => [] end.
Definition valid (s : state) (v : view) : bool :=
  (v_arr v <? length (arrs s)) && (v_off v + v_len v <=? length (data s (v_arr v))).
Definition contents (s : state) (v : view) : list A := firstn (v_len v) (skipn (v_off v) (data s (v_arr v))).
Definition nc_of (s : state) (o : nat) : nat := match nth_error (objs s) o with Some b => o_nc b | None => 0 end.
Definition kids_of (s : state) (o : nat) : list nat := match nth_error (objs s) o with Some b => o_kids b | None => [] end.
Definition saved_of (s : state) (o : nat) : option view := match nth_error (objs s) o with Some b => o_saved b | None => None end.

Definition put_saved (s : state) (o : nat) (v : view) : state :=
  match nth_error (objs s) o with
  | Some b => MkSt (arrs s) (upd (objs s) o (MkObj (o_nc b) (o_kids b) (o_whole b) (Some v)))
  | None => s
  end.
Definition alloc (s : state) (user : bool) (d : list A) : state := MkSt (arrs s ++ [MkArr user d]) (objs s).
Definition put_data (s : state) (a off : nat) (d : list A) : state :=
  match nth_error (arrs s) a with
  | Some r => MkSt (upd (arrs s) a (MkArr (ar_user r) (firstn off (ar_data r) ++ d ++ skipn (off + length d) (ar_data r)))) (objs s)
  | None => s
  end.

(** Kokkos::deep_copy between one-dimensional views: throws when the extents differ or when the
    views overlap without being the same. *)
Definition view_eqb (v w : view) : bool := (v_arr v =? v_arr w) && (v_off v =? v_off w) && (v_len v =? v_len w).
Definition overlap (v w : view) : bool :=
  (v_arr v =? v_arr w) && (v_off v <? v_off w + v_len w) && (v_off w <? v_off v + v_len v).
Definition copy (s : state) (dst src : view) : result :=
  if negb (v_len dst =? v_len src) then Threw s
  else if view_eqb dst src then Done s
  else if overlap dst src then Threw s
  else Done (put_data s (v_arr dst) (v_off dst) (contents s src)).

(** The loop that hands each component its slice. repo: TriangularMap.cpp:72-79, 89-96;
    ComposedMap.cpp:189-196, 208-215. [dbg] says whether assertions are compiled in; without
    them a slice that leaves the array is undefined. *)
Fixpoint slices (wrapk : state -> nat -> view -> result) (dbg : bool) (s : state) (v : view) (cum : nat) (kids : list nat) : result :=
  match kids with
  | [] => Done s
  | k :: rest =>
      let n := nc_of s k in
      if cum + n <=? v_len v
      then rbind (wrapk s k (MkView (v_arr v) (v_off v + cum) n)) (fun s => slices wrapk dbg s v (cum + n) rest)
      else if dbg then Abort else Undef
  end.

(** repo: ParameterizedFunctionBase.cpp:209-217 WrapCoeffs; TriangularMap.cpp:83-97;
    ComposedMap.cpp:201-216; SummarizedMap.cpp:38-45. The recursion descends to components,
    which were created before their container. *)
Fixpoint wrap (fuel : nat) (dbg : bool) (s : state) (o : nat) (v : view) : result :=
  match fuel with
  | O => Undef
  | S f =>
      match nth_error (objs s) o with
      | None => Undef
      | Some b =>
          if negb (v_len v =? o_nc b) then Threw s
          else
            let s := put_saved s o v in
            if o_whole b
            then match o_kids b with k :: _ => wrap f dbg s k v | [] => Done s end
            else slices (wrap f dbg) dbg s v 0 (o_kids b)
      end
  end.
Definition WrapCoeffs (dbg : bool) (s : state) (o : nat) (v : view) : result := wrap (S o) dbg s o v.

(** repo: ParameterizedFunctionBase.cpp:186-206 SetCoeffs. Kokkos::resize allocates an array and
    copies the common part. *)
Definition base_SetCoeffs (s : state) (o : nat) (v : view) : result :=
  match nth_error (objs s) o with
  | None => Undef
  | Some b =>
      match o_saved b with
      | Some w =>
          if negb (v_len v =? o_nc b) then Threw s
          else if v_len w =? o_nc b then copy s w v
          else
            let old := firstn (o_nc b) (contents s w) in
            let a := length (arrs s) in
            let s := alloc s false (old ++ repeat zero (o_nc b - length old)) in
            let w := MkView a 0 (o_nc b) in
            copy (put_saved s o w) w v
      | None =>
          let a := length (arrs s) in
          let s := alloc s false (repeat zero (v_len v)) in
          let w := MkView a 0 (v_len v) in
          copy (put_saved s o w) w v
      end
  end.
(** repo: TriangularMap.cpp:66-80; ComposedMap.cpp:183-197; SummarizedMap.cpp:30-35. *)
Definition SetCoeffs (dbg : bool) (s : state) (o : nat) (v : view) : result :=
  rbind (base_SetCoeffs s o v) (fun s =>
    match nth_error (objs s) o with
    | Some b =>
        match o_saved b with
        | Some w => if o_whole b
                    then match o_kids b with k :: _ => wrap o dbg s k w | [] => Done s end
                    else slices (wrap o dbg) dbg s w 0 (o_kids b)
        | None => Undef
        end
    | None => Undef
    end).

(** repo: ParameterizedFunctionBase.cpp:333-349 CheckCoefficients. *)
Definition check (s : state) (o : nat) : bool :=
  (nc_of s o =? 0) || match saved_of s o with Some v => v_len v =? nc_of s o | None => false end.

Definition total (s : state) (kids : list nat) : nat := fold_left (fun n k => n + nc_of s k) kids 0.

(** The copying loop of the constructors. repo: TriangularMap.cpp:41-59; ComposedMap.cpp:159-176.
    A component without coefficients has an empty or unallocated view. *)
Fixpoint gather (s : state) (a cum : nat) (kids : list nat) : result :=
  match kids with
  | [] => Done s
  | k :: rest =>
      if negb (check s k) then Threw s
      else
        let n := nc_of s k in
        let sub := MkView a cum n in
        rbind (match saved_of s k with
               | Some w => copy s sub w
               | None => if n =? 0 then Done s else Threw s
               end) (fun s => gather s a (cum + n) rest)
  end.

(** What the caller can do. A call that names an object or a part of an array that does not exist
    cannot be written in C++; the model refuses it and leaves the state unchanged. *)
Inductive op : Type :=
| NewArray (d : list A)                       (* the caller allocates and fills an array *)
| Write (a i : nat) (x : A)                   (* writes one entry, also through Coeffs() *)
| NewLeaf (nc : nat)                          (* a map that reads its coefficients itself *)
| NewBox (kids : list nat) (move : bool)      (* TriangularMap or ComposedMap *)
| NewSummarized (kid : nat)                   (* SummarizedMap *)
| Set_ (o : nat) (v : view)                   (* SetCoeffs *)
| Wrap_ (o : nat) (v : view).                 (* WrapCoeffs *)

Definition step (dbg : bool) (s : state) (p : op) : result :=
  match p with
  | NewArray d => Done (alloc s true d)
  | Write a i x => if i <? length (data s a) then Done (put_data s a i [x]) else Threw s
  | NewLeaf nc => Done (MkSt (arrs s) (objs s ++ [MkObj nc [] false None]))
  | NewBox kids move =>
      if (0 <? length kids) && forallb (fun k => k <? length (objs s)) kids then
        let o := length (objs s) in
        let n := total s kids in
        if move then
          let a := length (arrs s) in
          match gather (alloc s false (repeat zero n)) a 0 kids with
          | Done s' => WrapCoeffs dbg (MkSt (arrs s') (objs s' ++ [MkObj n kids false None])) o (MkView a 0 n)
          | Threw _ => Threw s
          | r => r
          end
        else Done (MkSt (arrs s) (objs s ++ [MkObj n kids false None]))
      else Threw s
  | NewSummarized k =>
      if k <? length (objs s) then Done (MkSt (arrs s) (objs s ++ [MkObj (nc_of s k) [k] true None])) else Threw s
  | Set_ o v => if (o <? length (objs s)) && valid s v then SetCoeffs dbg s o v else Threw s
  | Wrap_ o v => if (o <? length (objs s)) && valid s v then WrapCoeffs dbg s o v else Threw s
  end.
Definition start : state := MkSt [] [].

(** A history: exceptions are caught and the program goes on. *)
Inductive reaches (dbg : bool) : list op -> state -> Prop :=
| reach_start : reaches dbg [] start
| reach_done : forall h s p s', reaches dbg h s -> step dbg s p = Done s' -> reaches dbg (h ++ [p]) s'
| reach_threw : forall h s p s', reaches dbg h s -> step dbg s p = Threw s' -> reaches dbg (h ++ [p]) s'.

(** What callers and evaluations see. Coeffs() of an object: *)
Definition Coeffs (s : state) (o : nat) : option (list A) := option_map (contents s) (saved_of s o).
(** The maps whose own coefficients an evaluation of [o] reads, in order: [o] itself or those of its
    components. The Impl routines of components are called without another check. *)
Fixpoint leaves (fuel : nat) (s : state) (o : nat) : list nat :=
  match fuel with
  | O => []
  | S f => match kids_of s o with [] => [o] | kids => flat_map (leaves f s) kids end
  end.
Definition read_by (s : state) (o : nat) : list nat := leaves (S o) s o.
(** The coefficients an evaluation uses. *)
Definition used (s : state) (o : nat) : list A :=
  flat_map (fun l => if nc_of s l =? 0 then [] else match Coeffs s l with Some c => c | None => [] end) (read_by s o).
(** A public evaluation of [o] runs only when the check passes. repo: ParameterizedFunctionBase.cpp
    and ConditionalMapBase.cpp, every public evaluation function. *)
Definition runs (s : state) (o : nat) : bool := check s o.
End Heap.
Arguments result : clear implicits.
Arguments state : clear implicits.
Arguments op : clear implicits.
Arguments array : clear implicits.
