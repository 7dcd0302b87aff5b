(** Calls of filter().  Models check_filter_flag, crates/dreamchecker/src/lib.rs 3138-3209 (cited without file name), the part of
    visit_call about filters, 3252-3255, 3316-3327, 3338-3347 and 3392-3450, and the tables of crates/dreammaker/src/ast.rs 1624-1652.

    Simplifications: errors are reduced to what they say; the order of the names, which is that of a HashMap, is the order in which they
    were given first. *)
From Coq Require Import List Arith NArith ZArith Bool String.
From Verif Require Import Common.Text Objtree.Model Parse.Ast.
Import ListNotations.
Open Scope nat_scope.

(** ast.rs 1624-1639 VALID_FILTER_TYPES *)
Definition valid_filter_types : list (text * list text) :=
  map (fun e => (lit (fst e), map lit (snd e)))
    [("alpha", ["x"; "y"; "icon"; "render_source"; "flags"]);
     ("angular_blur", ["x"; "y"; "size"]);
     ("bloom", ["threshold"; "size"; "offset"; "alpha"]);
     ("color", ["color"; "space"]);
     ("displace", ["x"; "y"; "size"; "icon"; "render_source"; "flags"]);
     ("drop_shadow", ["x"; "y"; "size"; "offset"; "color"]);
     ("blur", ["size"]);
     ("layer", ["x"; "y"; "icon"; "render_source"; "flags"; "color"; "transform"; "blend_mode"]);
     ("motion_blur", ["x"; "y"]);
     ("outline", ["size"; "color"; "flags"]);
     ("radial_blur", ["x"; "y"; "size"]);
     ("rays", ["x"; "y"; "size"; "color"; "offset"; "density"; "threshold"; "factor"; "flags"]);
     ("ripple", ["x"; "y"; "size"; "repeat"; "radius"; "falloff"; "flags"]);
     ("wave", ["x"; "y"; "size"; "offset"; "flags"])]%string.
(** ast.rs 1641-1652 VALID_FILTER_FLAGS: the name of the parameter, whether there is only one value, whether it can be zero, the flags *)
Record flag_rule : Type := { fr_name : text; fr_exclusive : bool; fr_zero : bool; fr_flags : list text }.
Definition valid_filter_flags : list (text * flag_rule) :=
  map (fun e => let '(ty, (name, exclusive, zero, flags)) := e in
                (lit ty, {| fr_name := lit name; fr_exclusive := exclusive; fr_zero := zero; fr_flags := map lit flags |}))
    [("alpha", ("flags", false, true, ["MASK_INVERSE"; "MASK_SWAP"]));
     ("color", ("space", true, false, ["FILTER_COLOR_RGB"; "FILTER_COLOR_HSV"; "FILTER_COLOR_HSL"; "FILTER_COLOR_HCY"]));
     ("displace", ("flags", false, true, ["FILTER_OVERLAY"]));
     ("layer", ("flags", true, true, ["FILTER_OVERLAY"; "FILTER_UNDERLAY"]));
     ("rays", ("flags", false, true, ["FILTER_OVERLAY"; "FILTER_UNDERLAY"]));
     ("outline", ("flags", false, true, ["OUTLINE_SHARP"; "OUTLINE_SQUARE"]));
     ("ripple", ("flags", false, true, ["WAVE_BOUNDED"]));
     ("wave", ("flags", false, true, ["WAVE_SIDEWAYS"; "WAVE_BOUNDED"]))]%string.

(** What is known about the value of an argument: it is a path, a string or another constant *)
Inductive val : Type := VPath (p : list text) | VText (s : text) | VOther.

Section FILTERS.
Variable F : Type.
Inductive flag_error : Type := OnlyOne | HasFollow | UnknownFlag (name : text) | NotAFlag (x : term F) | NotFlags.
Inductive filter_error : Type := NoType | TypeNotText | UnknownType (ty : text) | UnknownParameter (ty name : text) | BadFlag (ty field : text) (e : flag_error).

(** 3138-3209 check_filter_flag *)
Fixpoint check_filter_flag (r : flag_rule) (e : expr F) : list flag_error :=
  match e with
  | Bin BBitOr a b => if fr_exclusive r then [OnlyOne] else check_filter_flag r a ++ check_filter_flag r b
  | Base x fs =>
      match fs with
      | _ :: _ => [HasFollow]
      | [] =>
          match x with
          | MIdent name => if existsb (text_eqb name) (fr_flags r) then [] else [UnknownFlag name]
          | MInt z => if (z =? 0)%Z && fr_zero r then [] else [NotAFlag x]
          | _ => [NotAFlag x]
          end
      end
  | _ => [NotFlags]
  end.

(** The arguments: the name if there is one, what is known about the value, and the expression of the value *)
Record arg : Type := { g_name : option text; g_val : option val; g_expr : expr F }.
(** 3252-3254, 3341-3347: the maps by name *)
Definition by_name (args : list arg) : list (text * arg) := fold_left (fun m a => match g_name a with Some k => ix_insert k a m | None => m end) args [].
(** 3316-3327: whether the first argument is [arglist(...)] *)
Definition arglist_used (args : list arg) : bool :=
  match args with
  | {| g_name := None; g_expr := Base (MCall name _) [] |} :: _ => text_eqb name (lit "arglist")
  | _ => false
  end.
(** 3392-3450: what is said; and whether the analysis of the call goes on after it *)
Definition filter_check (args : list arg) : list filter_error * bool :=
  let names := by_name args in
  match get (lit "type") names with
  | None => (if arglist_used args then [] else [NoType], false)
  | Some a =>
      match g_val a with
      | Some (VText ty) =>
          match get ty valid_filter_types with
          | None => ([UnknownType ty], false)
          | Some allowed =>
              (flat_map (fun e => let k := fst e in
                 if negb (text_eqb k (lit "type")) && negb (text_eqb k (lit "name")) && negb (existsb (text_eqb k) allowed) then [UnknownParameter ty k] else []) names ++
               match get ty valid_filter_flags with
               | Some r => match get (fr_name r) names with Some b => map (BadFlag ty (fr_name r)) (check_filter_flag r (g_expr b)) | None => [] end
               | None => []
               end, true)
          end
      | _ => ([TypeNotText], false)
      end
  end.
End FILTERS.
Arguments OnlyOne {F}. Arguments HasFollow {F}. Arguments UnknownFlag {F}. Arguments NotAFlag {F}. Arguments NotFlags {F}.
Arguments NoType {F}. Arguments TypeNotText {F}. Arguments UnknownType {F}. Arguments UnknownParameter {F}. Arguments BadFlag {F}.
Arguments check_filter_flag {F}. Arguments g_name {F}. Arguments g_val {F}. Arguments g_expr {F}. Arguments by_name {F}. Arguments arglist_used {F}. Arguments filter_check {F}.
