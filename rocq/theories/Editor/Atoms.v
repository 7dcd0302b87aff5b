(** Model of crates/spaceman-dmm/src/map_repr.rs: levels of atoms, render order, draw calls. *)
From Coq Require Import List Arith Lia Bool.
From Verif Require Import Common.Order Common.Text Objtree.Ispath Editor.Pool.
From Coq Require Import String.
Import ListNotations.
Open Scope nat_scope.

Section Atoms.
  (** [P] prefabs ([Arc<Prefab>], compared by value), [SK] the type of [RenderPop::sort_key] (map_renderer.rs:436:
      plane, layer, texture; any total order here), [V] an instance's four vertices. *)
  Context {P SK V : Type} `{TO : TotalOrd SK} (path_of : P -> text).

  (** map_renderer.rs:24-36 RenderPop, as far as map_repr.rs looks at it *)
  Record rpop := { rp_key : SK; rp_texture : nat; rp_vertices : nat * nat -> V }.

  (** map_repr.rs:36-41 Instance *)
  Record instance := { ix : nat; iy : nat; pop : P }.

  (** map_repr.rs:20-34 AtomZ.  A draw call is (texture, len) (map_renderer.rs:68-71).  [buffers_dirty]
      only tells the GPU code to upload again and is not modelled; u32 lengths are nat (they overflow
      above 715827882 instances). *)
  Record level := { instances : pool instance V; sorted_order : list nat;
                    index_buffer_ : list (list nat); index_buffer_dirty : bool;
                    draw_calls : list (nat * nat) }.

  (** map_repr.rs:12-18 AtomMap.  [pops] is total: prefabs handed to the API come from [add_pop],
      which inserts them, and the weak table keeps them while an instance holds them. *)
  Record atom_map := { size : nat * nat; pops : P -> rpop; levels : list level }.

  Definition empty_level : level :=
    {| instances := empty; sorted_order := []; index_buffer_ := []; index_buffer_dirty := false; draw_calls := [] |}.

  (** Vec::insert, Vec::remove; [None] = panic *)
  Fixpoint vec_insert {A} (i : nat) (x : A) (l : list A) : option (list A) :=
    match i, l with
    | O, _ => Some (x :: l)
    | S _, [] => None
    | S i', y :: l' => match vec_insert i' x l' with Some r => Some (y :: r) | None => None end
    end.
  Fixpoint vec_remove {A} (i : nat) (l : list A) : option (list A) :=
    match l, i with
    | [], _ => None
    | _ :: l', O => Some l'
    | y :: l', S i' => match vec_remove i' l' with Some r => Some (y :: r) | None => None end
    end.

  (** map_repr.rs:541-544 *)
  Definition indices (inst : nat) : list nat :=
    let start := inst * 4 in [start; start + 1; start + 3; start + 1; start + 2; start + 3].

  (** map_repr.rs:546-557 find_draw_call *)
  Fixpoint find_from (i start : nat) (calls : list (nat * nat)) (pos : nat) : nat * nat :=
    match calls with
    | [] => (i, start)
    | (_, len) :: cs =>
        if (start <=? pos) && (pos <? start + len) then (i, start) else find_from (S i) (start + len) cs pos
    end.
  Definition find_draw_call (calls : list (nat * nat)) (pos : nat) : nat * nat := find_from 0 0 calls pos.

  (** map_repr.rs:559-567 should_replace *)
  Definition should_replace (path : text) : option text :=
    if ispath path (lit "/turf/") then Some (lit "/turf/")
    else if ispath path (lit "/area/") then Some (lit "/area/")
    else None.

  (** a live instance's sort key and texture ([None] = panic) *)
  Definition pop_at (pops : P -> rpop) (l : level) (idx : nat) : option rpop :=
    option_map (fun i => pops (pop i)) (get_key (instances l) idx).

  (** map_repr.rs:421-434 prep_instance *)
  Definition prep_instance (pops : P -> rpop) (l : level) (x y : nat) (prefab : P) : option (level * nat) :=
    match push (instances l) {| ix := x; iy := y; pop := prefab |} (rp_vertices (pops prefab) (x, y)) with
    | Some (p, idx) =>
        Some ({| instances := p; sorted_order := sorted_order l; index_buffer_ := index_buffer_ l;
                 index_buffer_dirty := index_buffer_dirty l; draw_calls := draw_calls l |}, idx)
    | None => None
    end.

  Fixpoint position (idx : nat) (l : list nat) : option nat :=
    match l with
    | [] => None
    | y :: l' => if y =? idx then Some 0 else option_map S (position idx l')
    end.

  (** map_repr.rs:450-455: decrement the call, drop it when empty *)
  Definition shrink_call (calls : list (nat * nat)) (pos : nat) : option (list (nat * nat)) :=
    let '(dc, _) := find_draw_call calls pos in
    match nth_error calls dc with
    | None => None
    | Some (t, len) =>
        if len <? 6 then None
        else if len - 6 =? 0 then vec_remove dc calls
        else set_nth dc (t, len - 6) calls
    end.

  (** map_repr.rs:436-463 AtomZ::remove_instance; returns the removed instance *)
  Definition remove_instance (l : level) (idx : nat) : option (level * instance) :=
    match get_key (instances l) idx with
    | None => None
    | Some old =>
        match free (instances l) idx with
        | None => None
        | Some p =>
            match position idx (sorted_order l) with
            | None => Some ({| instances := p; sorted_order := sorted_order l; index_buffer_ := index_buffer_ l;
                               index_buffer_dirty := index_buffer_dirty l; draw_calls := draw_calls l |}, old)
            | Some pos =>
                match vec_remove pos (sorted_order l), vec_remove pos (index_buffer_ l), shrink_call (draw_calls l) (6 * pos) with
                | Some so, Some ib, Some dcs =>
                    Some ({| instances := p; sorted_order := so; index_buffer_ := ib;
                             index_buffer_dirty := index_buffer_dirty l; draw_calls := dcs |}, old)
                | _, _, _ => None
                end
            end
        end
    end.

  (** map_repr.rs:239-245: the first instance (pool order) on the tile whose path is under [cat] *)
  Definition find_replaced (l : level) (x y : nat) (cat : text) : option nat :=
    option_map fst (find (fun q => (ix (snd q) =? x) && (iy (snd q) =? y) && ispath (path_of (pop (snd q))) cat)
                         (keys_iter (instances l))).

  (** map_repr.rs:275-313: extend, insert or split a draw call *)
  Definition grow_calls (calls : list (nat * nat)) (pos : nat) (texture : nat) : option (list (nat * nat)) :=
    let '(dc, start) := find_draw_call calls pos in
    let fits i := match nth_error calls i with Some (t, _) => t =? texture | None => false end in
    let extend i := match nth_error calls i with Some (t, len) => set_nth i (t, len + 6) calls | None => None end in
    if pos =? start then
      if (0 <? dc) && fits (dc - 1) then extend (dc - 1)
      else if (dc <? List.length calls) && fits dc then extend dc
      else vec_insert dc (texture, 6) calls
    else
      match nth_error calls dc with
      | None => None
      | Some (t, len) =>
          if t =? texture then extend dc
          else match set_nth dc (t, len - (pos - start)) calls with
               | None => None
               | Some calls1 =>
                   match vec_insert dc (texture, 6) calls1 with
                   | None => None
                   | Some calls2 => vec_insert dc (t, pos - start) calls2
                   end
               end
      end.

  (** [slice::binary_search_by_key]: found index or insertion point.  Which of several equal
      elements is found is unspecified by std, so the search is a parameter. *)
  Inductive search_result := Found (i : nat) | Missing (i : nat).
  Variable bsearch : list SK -> SK -> search_result.

  Fixpoint all_some {A} (l : list (option A)) : option (list A) :=
    match l with
    | [] => Some []
    | Some x :: l' => option_map (cons x) (all_some l')
    | None :: _ => None
    end.

  (** map_repr.rs:225-320 AtomMap::add_instance on its level; returns the new index and the replaced instance.
      The keys of all instances are computed although the search looks at some of them only. *)
  Definition add_level (pops : P -> rpop) (l : level) (x y : nat) (prefab : P) : option (level * nat * option instance) :=
    let removed :=
      match should_replace (path_of prefab) with
      | None => Some (l, None)
      | Some cat =>
          match find_replaced l x y cat with
          | None => Some (l, None)
          | Some idx => option_map (fun r => (fst r, Some (snd r))) (remove_instance l idx)
          end
      end in
    match removed with
    | None => None
    | Some (l1, replaced) =>
        match prep_instance pops l1 x y prefab with
        | None => None
        | Some (l2, idx) =>
            match all_some (map (pop_at pops l2) (sorted_order l2)), pop_at pops l2 idx with
            | Some rps, Some rp =>
                let pos := match bsearch (map rp_key rps) (rp_key rp) with Found i => i | Missing i => i end in
                match vec_insert pos idx (sorted_order l2), vec_insert pos (indices idx) (index_buffer_ l2),
                      grow_calls (draw_calls l2) (6 * pos) (rp_texture rp) with
                | Some so, Some ib, Some dcs =>
                    Some ({| instances := instances l2; sorted_order := so; index_buffer_ := ib;
                             index_buffer_dirty := index_buffer_dirty l2; draw_calls := dcs |}, idx, replaced)
                | _, _, _ => None
                end
            | _, _ => None
            end
        end
    end.

  (** map_repr.rs:206-223 add_instance_unsorted on its level *)
  Definition add_unsorted (pops : P -> rpop) (l : level) (x y : nat) (prefab : P) : option level :=
    match prep_instance pops l x y prefab with
    | None => None
    | Some (l2, idx) =>
        Some {| instances := instances l2; sorted_order := sorted_order l2 ++ [idx];
                index_buffer_ := index_buffer_ l2 ++ [indices idx];
                index_buffer_dirty := index_buffer_dirty l2; draw_calls := draw_calls l2 |}
    end.

  (** [sort_by_key] is stable: the result is that of insertion sort *)
  Fixpoint insert_sorted (x : SK * nat) (l : list (SK * nat)) : list (SK * nat) :=
    match l with
    | [] => [x]
    | y :: l' => if kleb (fst x) (fst y) then x :: l else y :: insert_sorted x l'
    end.
  Definition stable_sort (l : list (SK * nat)) : list (SK * nat) := fold_right insert_sorted [] l.

  (** map_repr.rs:385-404: the calls are built left to right; [acc] is the list so far, last first *)
  Fixpoint build_calls (acc : list (nat * nat)) (textures : list nat) : list (nat * nat) :=
    match textures with
    | [] => rev acc
    | t :: ts =>
        match acc with
        | (t', len) :: acc' => if t' =? t then build_calls ((t', len + 6) :: acc') ts else build_calls ((t, 6) :: acc) ts
        | [] => build_calls [(t, 6)] ts
        end
    end.

  (** map_repr.rs:369-405 sort_again *)
  Definition sort_again (pops : P -> rpop) (l : level) : option level :=
    match all_some (map (pop_at pops l) (sorted_order l)) with
    | None => None
    | Some rps =>
        let so := map snd (stable_sort (combine (map rp_key rps) (sorted_order l))) in
        match all_some (map (pop_at pops l) so) with
        | None => None
        | Some rps' =>
            Some {| instances := instances l; sorted_order := so; index_buffer_ := index_buffer_ l;
                    index_buffer_dirty := true; draw_calls := build_calls [] (map rp_texture rps') |}
        end
    end.

  (** map_repr.rs:200-203, 466-480 defer_sort with a closure that adds instances *)
  Fixpoint add_all (pops : P -> rpop) (l : level) (adds : list (nat * nat * P)) : option level :=
    match adds with
    | [] => Some l
    | (x, y, p) :: rest => match add_unsorted pops l x y p with Some l' => add_all pops l' rest | None => None end
    end.
  Definition defer_level (pops : P -> rpop) (l : level) (adds : list (nat * nat * P)) : option level :=
    match add_all pops l adds with Some l' => sort_again pops l' | None => None end.

  (** map_repr.rs:411-422 index_buffer: the buffer returned and the state left behind *)
  Definition read_index (l : level) : level * list (list nat) :=
    if index_buffer_dirty l then
      let ib := map indices (sorted_order l) in
      ({| instances := instances l; sorted_order := sorted_order l; index_buffer_ := ib;
          index_buffer_dirty := false; draw_calls := draw_calls l |}, ib)
    else (l, index_buffer_ l).

  (** ** The whole map *)
  Definition with_level (m : atom_map) (z : nat) (l : level) : option atom_map :=
    option_map (fun ls => {| size := size m; pops := pops m; levels := ls |}) (set_nth z l (levels m)).

  (** map_repr.rs:225-320 add_instance *)
  Definition add_instance (m : atom_map) (x y z : nat) (prefab : P) : option (atom_map * nat * option instance) :=
    match nth_error (levels m) z with
    | None => None
    | Some l =>
        match add_level (pops m) l x y prefab with
        | None => None
        | Some (l', idx, replaced) => option_map (fun m' => (m', idx, replaced)) (with_level m z l')
        end
    end.
  (** map_repr.rs:340-343 remove_instance *)
  Definition remove_instance_at (m : atom_map) (z idx : nat) : option (atom_map * instance) :=
    match nth_error (levels m) z with
    | None => None
    | Some l =>
        match remove_instance l idx with
        | None => None
        | Some (l', old) => option_map (fun m' => (m', old)) (with_level m z l')
        end
    end.
  (** map_repr.rs:322-328 undo_add_instance *)
  Definition undo_add_instance (m : atom_map) (z idx : nat) (replaced : option instance) : option atom_map :=
    match replaced with
    | Some r => option_map (fun q => fst (fst q)) (add_instance m (ix r) (iy r) z (pop r))
    | None => option_map fst (remove_instance_at m z idx)
    end.
  (** map_repr.rs:345-353 undo_remove_instance *)
  Definition undo_remove_instance (m : atom_map) (z : nat) (old : instance) : option atom_map :=
    option_map (fun q => fst (fst q)) (add_instance m (ix old) (iy old) z (pop old)).
  (** map_repr.rs:330-338 get_instance; outer [None] = panic *)
  Definition get_instance (m : atom_map) (z idx : nat) : option (option instance) :=
    match nth_error (levels m) z with
    | None => None
    | Some l =>
        if (len (instances l) <=? idx) || mem idx (freelist (instances l)) then Some None
        else option_map Some (get_key (instances l) idx)
    end.
  (** map_repr.rs:200-203 *)
  Definition defer_sort (m : atom_map) (z : nat) (adds : list (nat * nat * P)) : option atom_map :=
    match nth_error (levels m) z with
    | None => None
    | Some l => match defer_level (pops m) l adds with Some l' => with_level m z l' | None => None end
    end.
  (** map_repr.rs:171-178 refresh_pops, with the new appearance of each prefab *)
  Definition refresh_pops (m : atom_map) (pops' : P -> rpop) : option atom_map :=
    option_map (fun ls => {| size := size m; pops := pops'; levels := ls |}) (all_some (map (sort_again pops') (levels m))).
  (** map_repr.rs:355-367 iter_instances: topmost first *)
  Definition iter_instances (m : atom_map) (x y z : nat) : option (list (nat * P)) :=
    match nth_error (levels m) z with
    | None => None
    | Some l =>
        option_map (fun insts => flat_map (fun q => if (ix (snd q) =? x) && (iy (snd q) =? y) then [(fst q, pop (snd q))] else [])
                                          (combine (rev (sorted_order l)) insts))
          (all_some (map (get_key (instances l)) (rev (sorted_order l))))
    end.

  (** A session.  [Remove]d indices must be alive (the editor removes what it was handed by
      add_instance or iter_instances). *)
  Definition live (m : atom_map) (z idx : nat) : option instance :=
    match nth_error (levels m) z with
    | None => None
    | Some l => option_map snd (find (fun q => fst q =? idx) (keys_iter (instances l)))
    end.

  Inductive reachable : atom_map -> Prop :=
  | r_new : forall sz rp n, reachable {| size := sz; pops := rp; levels := repeat empty_level n |}
  | r_defer : forall m z adds m', reachable m -> defer_sort m z adds = Some m' -> reachable m'
  | r_add : forall m x y z p m' i r, reachable m -> add_instance m x y z p = Some (m', i, r) -> reachable m'
  | r_remove : forall m z i m' o, reachable m -> live m z i <> None -> remove_instance_at m z i = Some (m', o) -> reachable m'
  | r_refresh : forall m rp m', reachable m -> refresh_pops m rp = Some m' -> reachable m'
  | r_read : forall m z l m', reachable m -> nth_error (levels m) z = Some l ->
      with_level m z (fst (read_index l)) = Some m' -> reachable m'.
End Atoms.
Arguments rpop : clear implicits.
Arguments level : clear implicits.
Arguments atom_map : clear implicits.
Arguments instance : clear implicits.
