(** C63-C65: concrete cases. *)
From Coq Require Import List NArith ZArith Bool String Lia Permutation Sorted.
From Verif Require Import Common.Text Objtree.Ispath Const.Model Const.Demo Dmi.Model Minimap.Model Passes.Model Passes.Spec Passes.Config Passes.Smooth Passes.Cables.
Import ListNotations.
Open Scope Z_scope.

(** ** C63 *)
Ltac sfree := vm_compute; intuition discriminate.
Definition four : list PassInfo :=
  [{| pass_name := lit "a"; pass_default := true |}; {| pass_name := lit "b"; pass_default := false |};
   {| pass_name := lit "c"; pass_default := true |}; {| pass_name := lit "d"; pass_default := false |}].
Definition conf (n : text) : option bool := if text_eqb n (lit "c") then Some false else if text_eqb n (lit "d") then Some true else None.
Example C63_demo :
  configure four conf [] [] = [lit "a"; lit "d"] /\
  configure four conf (lit "b,c") (lit "c,d") = [lit "a"; lit "b"; lit "c"] /\
  configure four conf (lit "b") (lit "all") = [lit "b"] /\
  configure four conf (lit "all") (lit "a,x") = [lit "b"; lit "c"; lit "d"].
Proof. vm_compute. repeat split; reflexivity. Qed.

Definition layers : list (text * Z) := [(lit "/obj", 1); (lit "/obj/machinery/", 2); (lit "/obj/machinery/door", 3)].
Definition layers_sorted : list (text * Z) := [(lit "/obj/machinery/door", 3); (lit "/obj/machinery/", 2); (lit "/obj", 1)].
Example C63_layer_demo :
  sorted_from layers layers_sorted /\ NoDup (map fst layers) /\ (forall key v, In (key, v) layers -> exists ks, names key ks) /\
  type_path (lit "/obj/machinery/door/airlock") [lit "obj"; lit "machinery"; lit "door"; lit "airlock"] /\
  map (fun p => fancy_layer_for_path (fun _ => Some 0) (overrides layers_sorted) (lit p))
    ["/obj/machinery/door/airlock"; "/obj/machinery/doors"; "/obj/item"; "/turf"]%string = [Some 3; Some 2; Some 1; Some 0].
Proof.
  split; [|split; [|split; [|split]]].
  - split; [change layers_sorted with (rev layers); apply Permutation_rev|].
    repeat (apply SSorted_cons; [|repeat (apply Forall_cons; [vm_compute; discriminate|]); apply Forall_nil]). apply SSorted_nil.
  - repeat apply NoDup_cons; [| | |apply NoDup_nil]; vm_compute; intuition discriminate.
  - intros key v [[= <- <-]|[[= <- <-]|[[= <- <-]|[]]]].
    + exists [lit "obj"]. split; [intros c [<-|[]]; sfree|]. split; [right; discriminate|]. left. reflexivity.
    + exists [lit "obj"; lit "machinery"]. split; [intros c [<-|[<-|[]]]; sfree|]. split; [right; discriminate|]. right. reflexivity.
    + exists [lit "obj"; lit "machinery"; lit "door"]. split; [intros c [<-|[<-|[<-|[]]]]; sfree|]. split; [right; discriminate|]. left. reflexivity.
  - split; [intros c [<-|[<-|[<-|[<-|[]]]]]; sfree|]. reflexivity.
  - vm_compute. reflexivity.
Qed.

(** ** A small world: an object has a type and a list of variables *)
Definition thing : Type := @Atom text (list (text * constant Z)).
Definition thing_var (a : thing) (name : text) : constant Z :=
  match prefab a with
  | Some vs => match find (fun e => text_eqb (fst e) name) vs with Some e => snd e | None => CNull None end
  | None => CNull None
  end.
Definition id_path (t : text) : text := t.
Definition mk (p : string) (vs : list (string * constant Z)) : thing :=
  {| type_ := lit p; prefab := Some (map (fun e => (lit (fst e), snd e)) vs); sprite := zero_sprite |}.
Definition kind (p : text) : Sprite := with_state zero_sprite p.
Definition thing_sprite (a : thing) : Sprite := kind (type_ a).
Definition states (r : list Sprite * bool) : list text * bool := (map icon_state (fst r), snd r).

Definition nums (l : list Z) : constant Z := CList (map (fun z => (CFloat z, None)) l).
Definition wall (flags : Z) : thing :=
  mk "/turf/closed/wall/iron" [("smoothing_flags", CFloat flags); ("canSmoothWith", nums [1; 2]); ("smoothing_groups", nums [2]);
                                ("base_icon_state", CString (lit "iron"))]%string.
Definition floor : thing := mk "/turf/open/floor/wood" [].
(** walls to the north, west and northwest, a floor to the east, nothing to the south *)
Definition around (flags : Z) : @Neighborhood text (list (text * constant Z)) :=
  [[wall flags]; [wall flags]; [floor]; [wall flags]; [wall flags]; [floor]; [floor]; []; [floor]].

Example C64_demo :
  let run2020 := fun flags => smooth_2020 Z tenths (fun z => z) id_path thing_var thing_sprite kind (-1) (wall flags) (around flags) in
  let run2025 := fun flags => smooth_2025 Z tenths (fun z => z) id_path thing_var thing_sprite kind (-1) (wall flags) (around flags) in
  states (run2020 1) = ([lit "1-f"; lit "2-n"; lit "3-w"; lit "4-i"], false) /\
  states (run2020 9) = ([lit "1-f"; lit "2-n"; lit "3-sw"; lit "4-s"], false) /\
  states (run2020 5) = ([lit "/turf/open/floor/wood"; lit "d-se"; lit "d-se-1"], false) /\
  states (run2020 2) = ([lit "iron-137"], false) /\
  states (run2020 6) = ([lit "/turf/open/floor/wood"; lit "iron-137-d"], false) /\
  states (run2025 1) = ([lit "iron-137"], false) /\ states (run2020 4) = ([], true).
Proof. vm_compute. repeat split; reflexivity. Qed.

(** the hypotheses of the theorems *)
Example C64_demo_flags : forall flags, flags_of Z (fun z => z) thing_var (-1) (wall flags) flags /\ ~ movable id_path (wall flags).
Proof.
  intro flags. split; [|vm_compute; discriminate]. split.
  - intros f H. assert (E : thing_var (wall flags) (lit "smoothing_flags") = CFloat flags) by reflexivity. rewrite E in H.
    injection H as <-. rewrite Z.land_m1_l. reflexivity.
  - intro H. exfalso. exact (H flags eq_refl).
Qed.

(** a loose table joins up with others; the older pass sees no type of its list *)
Definition table : thing :=
  mk "/obj/structure/table" [("can_be_unanchored", CFloat 10); ("anchored", CFloat 0); ("smoothing_flags", CFloat 2);
                             ("smoothing_groups", nums [5]); ("canSmoothWith", nums [5])]%string.
Definition table_2016 : thing :=
  mk "/obj/structure/table" [("canSmoothWith", CList [(CPrefab (Pop [lit "obj"; lit "structure"; lit "table"] []), None)])]%string.
Definition tables (t : thing) : @Neighborhood text (list (text * constant Z)) := [[]; [t]; []; []; [t]; []; []; []; []].
Example C64_loose_demo :
  to_bool Z tenths (thing_var table (lit "can_be_unanchored")) = true /\ to_bool Z tenths (thing_var table (lit "anchored")) = false /\
  calculate_adjacencies Z tenths id_path thing_var (tables table) table 2 = 1 /\
  find_type_2016 Z id_path thing_var (tables table_2016) table_2016 North 1 = Some false.
Proof. vm_compute. repeat split; reflexivity. Qed.

(** ** C65 *)
Definition cable (l : string) : thing := mk "/obj/structure/cable" [("cable_layer", CString (lit l))]%string.
Definition plain_cable : thing := mk "/obj/structure/cable" [].
Definition grille : thing := mk "/obj/structure/grille/broken" [].
Definition smes_thing : thing := mk "/obj/machinery/power/smes/magical" [].
Definition terminal_thing : thing := mk "/obj/machinery/power/terminal" [].
(** cables of the second layer to the north and west, of the first to the east, beside a terminal to the south *)
Definition grid (here : list thing) : @Neighborhood text (list (text * constant Z)) :=
  [[]; [plain_cable]; []; [cable "l2"]; plain_cable :: here; [cable "l1"]; []; [terminal_thing; plain_cable]; []].
Example C65_demo :
  let run := fun here => states (smart_cables Z id_path thing_var plain_cable (grid here)) in
  run [] = ([lit "l2-1-2-8"], false) /\ run [grille] = ([lit "l2-1-2-8-node"], false) /\ run [smes_thing] = ([lit "l2-1-8-node"], false) /\
  states (smart_cables Z id_path thing_var (cable "l1") (grid [])) = ([lit "l1-4"], false) /\
  states (smart_cables Z id_path thing_var (cable "l3") (grid [])) = ([lit "l3-noconnection"], false) /\
  on_layer Z thing_var plain_cable (lit "l2") /\
  ~ (stands id_path [smes_thing] smes /\ stands id_path [smes_thing] terminal).
Proof.
  do 5 (split; [vm_compute; reflexivity|]). split.
  - right. split; [reflexivity|]. discriminate.
  - intros [_ (a & [<-|[]] & H)]. vm_compute in H. discriminate.
Qed.

(** ** C63, hiding *)
Definition gt60 (z : Z) : bool := 600 <? z.
Example C63_hide_demo :
  map (hide_invisible Z gt60 id_path thing_var (map with_slash [lit "/obj/structure"; lit "/mob/"]))
    [mk "/obj/structure/table" []; mk "/obj/structures" []; mk "/obj/item" [("invisibility", CFloat 610)];
     mk "/obj/item" [("invisibility", CFloat 600)];
     mk "/obj/item" [("icon", CResource (lit "icons/obj/items_and_weapons.dmi")); ("icon_state", CString (lit "syndballoon"))];
     mk "/obj/item/toy/syndicateballoon" [("icon", CResource (lit "icons/obj/items_and_weapons.dmi")); ("icon_state", CString (lit "syndballoon"))]]%string =
  [false; true; false; true; false; true].
Proof. vm_compute. reflexivity. Qed.
