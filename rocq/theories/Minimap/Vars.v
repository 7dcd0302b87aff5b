(** C62: the sprite an object gets from its variables (minimap.rs:338-615). *)
From Coq Require Import List NArith ZArith Bool Lia String.
From Verif Require Import Common.Text Dmi.Model Minimap.Model Minimap.Layer.
Import ListNotations.
Open Scope Z_scope.

(** ** Model *)

(** constants.rs:76-100 Constant, as far as a sprite depends on it; [VOther]: new, list, call, prefab *)
Inductive value := VNull | VString (s : text) | VResource (s : text) | VFloat (f : f32) | VOther.

(** [f32 as i32], [as u8]: truncating and saturating *)
Definition saturate (lo hi z : Z) : Z := if z <? lo then lo else if z >? hi then hi else z.
Definition f32_as (lo hi : Z) (f : f32) : Z :=
  match f with NaN => 0 | Inf true => lo | Inf false => hi | Fin m => saturate lo hi (Z.quot m ONE) end.

(** constants.rs:222-241 *)
Definition to_int (v : value) : option Z :=
  match v with VFloat f => Some (f32_as (- 2 ^ 31) (2 ^ 31 - 1) f) | _ => None end.
Definition as_str (v : value) : option text := match v with VString s => Some s | _ => None end.
Definition as_path_str (v : value) : option text :=
  match v with VString s => Some s | VResource s => Some s | _ => None end.

Definition or {A} (o : option A) (d : A) : A := match o with Some x => x | None => d end.

Section Vars.
  Context {T : Type}.
  (** [type_vars t key]: [None] = not among the variables of [t]; [Some None] = declared or overridden
      there without a constant.  [parent_of]: objtree.rs:759-761.  [map_vars]: written in the map. *)
  Context (type_vars : T -> text -> option (option value)) (parent_of : T -> option T).

  (** minimap.rs:375-383: the loop up the parents; [None] = the fuel ran out *)
  Fixpoint climb (fuel : nat) (t : T) (key : text) : option (option value) :=
    match fuel with
    | O => None
    | S fuel' =>
        match type_vars t key with
        | Some v => Some (Some (or v VNull))
        | None => match parent_of t with
                  | Some p => climb fuel' p key
                  | None => Some None
                  end
        end
    end.

  (** minimap.rs:364-386 get_var_inner for an atom; [prefab]: variables written in the map, if any *)
  Definition get_var_inner (fuel : nat) (prefab : option (list (text * value))) (t : T) (key : text) : option (option value) :=
    match prefab with
    | Some vars =>
        match find (fun e => text_eqb (fst e) key) vars with
        | Some e => Some (Some (snd e))
        | None => climb fuel t key
        end
    | None => climb fuel t key
    end.

  (** minimap.rs:344-347 get_var *)
  Definition get_var (fuel : nat) (prefab : option (list (text * value))) (t : T) (key : text) : option value :=
    option_map (fun v => or v VNull) (get_var_inner fuel prefab t key).
End Vars.

(** [char::to_digit(16)] *)
Definition hex_digit (c : chr) : option Z :=
  if (48 <=? c)%N && (c <=? 57)%N then Some (Z.of_N c - 48)
  else if (97 <=? c)%N && (c <=? 102)%N then Some (Z.of_N c - 87)
  else if (65 <=? c)%N && (c <=? 70)%N then Some (Z.of_N c - 55)
  else None.

(** minimap.rs:567-570: u32; [None] = overflow *)
Fixpoint hex_sum (sum : Z) (s : text) : option Z :=
  match s with
  | [] => Some sum
  | ch :: s' =>
      let sum := 16 * sum + or (hex_digit ch) 0 in
      if sum <? 2 ^ 32 then hex_sum sum s' else None
  end.

(** [str::len]: bytes *)
Definition byte_len (s : text) : N := fold_right (fun c n => (len_utf8 c + n)%N) 0%N s.

(** minimap.rs:593-615 html_color *)
Definition html_color (name : text) : option (Z * Z * Z) :=
  let is s := text_eqb name (lit s) in
  if is "black"%string then Some (0, 0, 0)
  else if is "silver"%string then Some (192, 192, 192)
  else if is "gray"%string || is "grey"%string then Some (128, 128, 128)
  else if is "white"%string then Some (255, 255, 255)
  else if is "maroon"%string then Some (128, 0, 0)
  else if is "red"%string then Some (255, 0, 0)
  else if is "purple"%string then Some (128, 0, 128)
  else if is "fuchsia"%string || is "magenta"%string then Some (255, 0, 255)
  else if is "green"%string then Some (0, 192, 0)
  else if is "lime"%string then Some (0, 255, 0)
  else if is "olive"%string || is "gold"%string then Some (128, 128, 0)
  else if is "yellow"%string then Some (255, 255, 0)
  else if is "navy"%string then Some (0, 0, 128)
  else if is "blue"%string then Some (0, 0, 255)
  else if is "teal"%string then Some (0, 128, 128)
  else if is "aqua"%string || is "cyan"%string then Some (0, 255, 255)
  else None.

(** minimap.rs:559-562 *)
Definition alpha_of (v : value) : Z :=
  match v with
  | VFloat (Fin m) => if (0 <=? m) && (m <=? 255 * ONE) then f32_as 0 255 (Fin m) else 255
  | _ => 255
  end.

(** minimap.rs:558-591 color_of, from the two variables *)
Definition color_of (color alpha : value) : option Rgba8 :=
  let mk x y z := {| r := x; g := y; b := z; a := alpha_of alpha |} in
  match color with
  | VString (35%N :: digits) =>
      match hex_sum 0 digits with
      | None => None
      | Some sum =>
          if (byte_len (35%N :: digits) =? 7)%N then
            Some (mk (Z.shiftr sum 16 mod 256) (Z.shiftr sum 8 mod 256) (sum mod 256))
          else if (byte_len (35%N :: digits) =? 4)%N then
            Some (mk (17 * Z.land (Z.shiftr sum 8) 15 mod 256) (17 * Z.land (Z.shiftr sum 4) 15 mod 256)
                     (17 * Z.land sum 15 mod 256))
          else Some (mk 255 255 255)
      end
  | VString name =>
      match html_color name with
      | Some (x, y, z) => Some (mk x y z)
      | None => Some (mk 255 255 255)
      end
  | _ => Some (mk 255 255 255)
  end.

(** minimap.rs:538-546 plane_of, 548-556 layer_of *)
Definition plane_of (v : value) : Z := match v with VFloat f => f32_as (- 2 ^ 31) (2 ^ 31 - 1) f | _ => 0 end.
Definition layer_of (v : value) : Layer := match v with VFloat f => layer_from_f32 f | _ => {| whole := 2; frac := 0 |} end.

(** minimap.rs:498-520 from_vars; [var]: the variables; [None] = i32 or u32 overflow *)
Definition from_vars (var : text -> value) : option Sprite :=
  let int name := or (to_int (var (lit name))) 0 in
  let sum x y z := match i32 (x + y) with Some s => i32 (s + z) | None => None end in
  match color_of (var (lit "color")) (var (lit "alpha")),
        sum (int "pixel_x"%string) (int "pixel_w"%string) (int "step_x"%string),
        sum (int "pixel_y"%string) (int "pixel_z"%string) (int "step_y"%string) with
  | Some c, Some x, Some y =>
      Some {| icon := or (as_path_str (var (lit "icon"))) [];
              icon_state := or (as_str (var (lit "icon_state"))) [];
              sdir := or (match to_int (var (lit "dir")) with Some n => from_int n | None => None end) South;
              color := c; ofs_x := x; ofs_y := y;
              plane := plane_of (var (lit "plane")); layer := layer_of (var (lit "layer")) |}
  | _, _, _ => None
  end.

(** ** Specification *)
Section Spec.
  Context {T : Type} (type_vars : T -> text -> option (option value)) (parent_of : T -> option T).

  (** [inherited t key v]: the nearest of [t] and its ancestors with the variable gives it the value [v] *)
  Inductive inherited : T -> text -> value -> Prop :=
  | inh_here t key v : type_vars t key = Some (Some v) -> inherited t key v
  | inh_unset t key : type_vars t key = Some None -> inherited t key VNull
  | inh_above t key p v : type_vars t key = None -> parent_of t = Some p -> inherited p key v -> inherited t key v
  | inh_nowhere t key : type_vars t key = None -> parent_of t = None -> inherited t key VNull.

  (** the line of ancestors ends *)
  Inductive finite_line : T -> nat -> Prop :=
  | line_root t : parent_of t = None -> finite_line t 1
  | line_up t p n : parent_of t = Some p -> finite_line p n -> finite_line t (S n).
End Spec.

(** value of a row of hexadecimal digits *)
Definition digit (c : chr) (d : Z) : Prop :=
  0 <= d /\ (nth_error (lit "0123456789abcdef") (Z.to_nat d) = Some c \/ nth_error (lit "0123456789ABCDEF") (Z.to_nat d) = Some c).
Inductive hex : text -> list Z -> Prop :=
| hex_nil : hex [] []
| hex_cons c d s ds : digit c d -> hex s ds -> hex (c :: s) (d :: ds).
Fixpoint hex_value (ds : list Z) : Z :=
  match ds with [] => 0 | d :: ds' => d * 16 ^ Z.of_nat (List.length ds') + hex_value ds' end.

(** the number an [f32] stands for, cut off after the point *)
Definition int_of (v : value) (n : Z) : Prop :=
  match v with
  | VFloat (Fin m) => - 2 ^ 31 <= Z.quot m ONE < 2 ^ 31 /\ n = Z.quot m ONE
  | VFloat _ => False
  | _ => n = 0
  end.

(** ** Theorems *)

(** C62, variables: the value of a variable is the one written in the map, or else that of the nearest
    ancestor that has it, and null when it has none there or none has it. *)
Theorem C62_variable : forall T (type_vars : T -> text -> option (option value)) parent_of t n fuel vars key,
  finite_line parent_of t n -> (n <= fuel)%nat ->
  exists v, get_var type_vars parent_of fuel vars t key = Some v /\
    ((exists vs, vars = Some vs /\ exists pre post, vs = pre ++ (key, v) :: post /\ forall x, In x pre -> fst x <> key) \/
     (forall vs x, vars = Some vs -> In x vs -> fst x <> key) /\ inherited type_vars parent_of t key v).
Proof.
  intros T tv po t n fuel vars key Hn Hf.
  assert (Hc : exists v, option_map (fun v => or v VNull) (climb tv po fuel t key) = Some v /\ inherited tv po t key v).
  { clear vars. revert fuel Hf. induction Hn as [t Hr|t p n Hp Hn IH]; intros [|fuel] Hf; try lia; cbn [climb].
    - destruct (tv t key) as [[v|]|] eqn:E; cbn [option_map or].
      + exists v. split; [reflexivity|]. apply inh_here. exact E.
      + exists VNull. split; [reflexivity|]. apply inh_unset. exact E.
      + rewrite Hr. exists VNull. split; [reflexivity|]. apply inh_nowhere; assumption.
    - destruct (tv t key) as [[v|]|] eqn:E; cbn [option_map or].
      + exists v. split; [reflexivity|]. apply inh_here. exact E.
      + exists VNull. split; [reflexivity|]. apply inh_unset. exact E.
      + rewrite Hp. destruct (IH fuel ltac:(lia)) as (v & Ev & Hv). exists v. split; [exact Ev|].
        eapply inh_above; eassumption. }
  destruct Hc as (v & Ev & Hv). unfold get_var, get_var_inner. destruct vars as [vs|].
  - destruct (find (fun e => text_eqb (fst e) key) vs) as [[k w]|] eqn:Ef.
    + exists w. split; [reflexivity|]. left. exists vs. split; [reflexivity|]. clear - Ef.
      induction vs as [|[k' w'] vs IH]; cbn [find fst] in Ef; [discriminate|].
      destruct (text_eqb k' key) eqn:Ek.
      * exists [], vs. injection Ef as -> ->. apply text_eqb_eq in Ek. subst. split; [reflexivity|]. intros x [].
      * destruct (IH Ef) as (pre & post & -> & Hpre). exists ((k', w') :: pre), post. split; [reflexivity|].
        intros x [<-|Hx]; [cbn; intro E; subst; rewrite (proj2 (text_eqb_eq key key) eq_refl) in Ek; discriminate|auto].
    + exists v. split; [exact Ev|]. right. split; [|exact Hv]. intros vs' x [= <-] Hx E.
      apply (find_none _ _ Ef) in Hx. rewrite E in Hx. rewrite (proj2 (text_eqb_eq key key) eq_refl) in Hx. discriminate.
  - exists v. split; [exact Ev|]. right. split; [|exact Hv]. intros vs' x [=].
Qed.
Print Assumptions C62_variable.

Lemma digit_hex : forall c d, digit c d -> hex_digit c = Some d.
Proof.
  intros c d [H0 H]. assert (L : (Z.to_nat d < 16)%nat).
  { destruct H as [H|H]; [change 16%nat with (List.length (lit "0123456789abcdef"))|change 16%nat with (List.length (lit "0123456789ABCDEF"))];
      apply nth_error_Some; rewrite H; discriminate. }
  rewrite <- (Z2Nat.id d) by exact H0. set (n := Z.to_nat d) in *. clearbody n. clear H0.
  do 16 (destruct n as [|n]; [destruct H as [H|H]; vm_compute in H; injection H as <-; reflexivity|]). lia.
Qed.

Lemma hex_sum_spec : forall s ds, hex s ds -> forall acc, 0 <= acc -> 
  let v := acc * 16 ^ Z.of_nat (List.length ds) + hex_value ds in
  (v < 2 ^ 32 -> hex_sum acc s = Some v) /\ (2 ^ 32 <= v -> acc < 2 ^ 32 -> hex_sum acc s = None) /\
  0 <= hex_value ds < 16 ^ Z.of_nat (List.length ds).
Proof.
  intros s ds H. induction H as [|c d s ds Hd H IH]; intros acc Ha; cbn [hex_sum hex_value List.length].
  - rewrite Z.pow_0_r. split; [intros; f_equal; lia|]. split; [lia|lia].
  - apply digit_hex in Hd. assert (Hdb : 0 <= d < 16).
    { unfold hex_digit in Hd. clear - Hd.
      destruct ((48 <=? c)%N && (c <=? 57)%N) eqn:E1; [rewrite andb_true_iff, !N.leb_le in E1; injection Hd as <-; lia|].
      destruct ((97 <=? c)%N && (c <=? 102)%N) eqn:E2; [rewrite andb_true_iff, !N.leb_le in E2; injection Hd as <-; lia|].
      destruct ((65 <=? c)%N && (c <=? 70)%N) eqn:E3; [rewrite andb_true_iff, !N.leb_le in E3; injection Hd as <-; lia|discriminate]. }
    rewrite Hd. cbn [or]. rewrite Nat2Z.inj_succ, Z.pow_succ_r by lia.
    destruct (IH (16 * acc + d) ltac:(lia)) as (I1 & I2 & I3). set (p := 16 ^ Z.of_nat (List.length ds)) in *.
    assert (Hp : 0 < p) by (apply Z.pow_pos_nonneg; lia).
    replace (acc * (16 * p) + (d * p + hex_value ds)) with ((16 * acc + d) * p + hex_value ds) by ring.
    cbv zeta in *. split; [|split].
    + intro L. destruct (Z.ltb_spec (16 * acc + d) (2 ^ 32)); [apply I1; exact L|]. nia.
    + intros L _. destruct (Z.ltb_spec (16 * acc + d) (2 ^ 32)); [apply I2; assumption|reflexivity].
    + nia.
Qed.

Lemma hex_ascii : forall s ds, hex s ds -> byte_len s = N.of_nat (List.length ds) /\ Forall (fun d => 0 <= d < 16) ds.
Proof.
  intros s ds H. induction H as [|c d s ds Hd H [IH1 IH2]]; [split; [reflexivity|constructor]|].
  apply digit_hex in Hd. assert (Hc : (c < 128)%N /\ 0 <= d < 16).
  { unfold hex_digit in Hd. clear - Hd.
    destruct ((48 <=? c)%N && (c <=? 57)%N) eqn:E1; [rewrite andb_true_iff, !N.leb_le in E1; injection Hd as <-; lia|].
    destruct ((97 <=? c)%N && (c <=? 102)%N) eqn:E2; [rewrite andb_true_iff, !N.leb_le in E2; injection Hd as <-; lia|].
    destruct ((65 <=? c)%N && (c <=? 70)%N) eqn:E3; [rewrite andb_true_iff, !N.leb_le in E3; injection Hd as <-; lia|discriminate]. }
  split; [|constructor; [apply Hc|exact IH2]]. unfold byte_len in *. cbn [fold_right List.length]. rewrite IH1. unfold len_utf8.
  destruct (N.ltb_spec c 0x80); [lia|lia].
Qed.

(** C62, colours: "#rrggbb" and "#rgb" mean what they mean in HTML, the sixteen names and their
    synonyms are known, everything else is white; alpha is used when it is from 0 to 255.  The
    exception: "#" and more digits panics when their value does not fit 32 bits. *)
Theorem C62_color_partial : forall alpha,
  (forall s d1 d2 d3 d4 d5 d6, hex s [d1; d2; d3; d4; d5; d6] ->
     color_of (VString (35%N :: s)) alpha =
       Some {| r := 16 * d1 + d2; g := 16 * d3 + d4; b := 16 * d5 + d6; a := alpha_of alpha |}) /\
  (forall s d1 d2 d3, hex s [d1; d2; d3] ->
     color_of (VString (35%N :: s)) alpha =
       Some {| r := 16 * d1 + d1; g := 16 * d2 + d2; b := 16 * d3 + d3; a := alpha_of alpha |}) /\
  (forall s ds, hex s ds -> List.length ds <> 3%nat -> List.length ds <> 6%nat ->
     (hex_value ds < 2 ^ 32 ->
        color_of (VString (35%N :: s)) alpha = Some {| r := 255; g := 255; b := 255; a := alpha_of alpha |}) /\
     (2 ^ 32 <= hex_value ds -> color_of (VString (35%N :: s)) alpha = None)) /\
  (forall v, (forall s, v <> VString s) ->
     color_of v alpha = Some {| r := 255; g := 255; b := 255; a := alpha_of alpha |}) /\
  (forall m, alpha = VFloat (Fin m) -> 0 <= m <= 255 * ONE -> alpha_of alpha = m / ONE) /\
  (forall m, alpha = VFloat (Fin m) -> m < 0 \/ 255 * ONE < m -> alpha_of alpha = 255) /\
  ((forall f, alpha <> VFloat f) -> alpha_of alpha = 255).
Proof.
  intro alpha. split; [|split; [|split; [|split; [|split; [|split]]]]].
  - intros s d1 d2 d3 d4 d5 d6 H. destruct (hex_ascii _ _ H) as [L B].
    destruct (hex_sum_spec _ _ H 0 ltac:(lia)) as (S1 & _ & S3). cbn [List.length] in *. cbv zeta in S1.
    rewrite Z.mul_0_l, Z.add_0_l in S1. cbn [color_of]. rewrite S1 by (change (16 ^ Z.of_nat 6) with (2 ^ 24) in S3; lia).
    assert (L7 : byte_len (35%N :: s) = 7%N) by (unfold byte_len in *; cbn [fold_right]; rewrite L; reflexivity).
    rewrite L7. change (7 =? 7)%N with true. cbv iota. f_equal.
    assert (Ev : hex_value [d1; d2; d3; d4; d5; d6] = (16 * d1 + d2) * 2 ^ 16 + ((16 * d3 + d4) * 2 ^ 8 + (16 * d5 + d6))).
    { cbn [hex_value List.length]. change (16 ^ Z.of_nat 5) with (2 ^ 20). change (16 ^ Z.of_nat 4) with (2 ^ 16).
      change (16 ^ Z.of_nat 3) with (2 ^ 12). change (16 ^ Z.of_nat 2) with (2 ^ 8). change (16 ^ Z.of_nat 1) with 16.
      change (16 ^ Z.of_nat 0) with 1. lia. }
    rewrite Ev. repeat match goal with H : Forall _ (_ :: _) |- _ => inversion H; clear H; subst end.
    rewrite !Z.shiftr_div_pow2 by lia.
    f_equal.
    + rewrite Z.div_add_l by lia. rewrite (Z.div_small (_ + _) (2 ^ 16)) by lia. rewrite Z.mod_small; lia.
    + replace ((16 * d1 + d2) * 2 ^ 16 + ((16 * d3 + d4) * 2 ^ 8 + (16 * d5 + d6)))
        with (((16 * d1 + d2) * 256 + (16 * d3 + d4)) * 2 ^ 8 + (16 * d5 + d6)) by lia.
      rewrite Z.div_add_l by lia. rewrite (Z.div_small (16 * d5 + d6) (2 ^ 8)) by lia. rewrite Z.add_0_r.
      rewrite Z.add_comm, Z.mod_add by lia. apply Z.mod_small. lia.
    + replace ((16 * d1 + d2) * 2 ^ 16 + ((16 * d3 + d4) * 2 ^ 8 + (16 * d5 + d6)))
        with ((16 * d5 + d6) + ((16 * d1 + d2) * 256 + (16 * d3 + d4)) * 256) by lia.
      rewrite Z.mod_add by lia. apply Z.mod_small. lia.
  - intros s d1 d2 d3 H. destruct (hex_ascii _ _ H) as [L B].
    destruct (hex_sum_spec _ _ H 0 ltac:(lia)) as (S1 & _ & S3). cbn [List.length] in *. cbv zeta in S1.
    rewrite Z.mul_0_l, Z.add_0_l in S1. cbn [color_of]. rewrite S1 by (change (16 ^ Z.of_nat 3) with (2 ^ 12) in S3; lia).
    assert (L4 : byte_len (35%N :: s) = 4%N) by (unfold byte_len in *; cbn [fold_right]; rewrite L; reflexivity).
    rewrite L4. change (4 =? 7)%N with false. change (4 =? 4)%N with true. cbv iota. f_equal.
    assert (Ev : hex_value [d1; d2; d3] = d1 * 2 ^ 8 + (d2 * 2 ^ 4 + d3)).
    { cbn [hex_value List.length]. change (16 ^ Z.of_nat 2) with (2 ^ 8). change (16 ^ Z.of_nat 1) with (2 ^ 4).
      change (16 ^ Z.of_nat 0) with 1. lia. }
    rewrite Ev. repeat match goal with H : Forall _ (_ :: _) |- _ => inversion H; clear H; subst end.
    rewrite !Z.shiftr_div_pow2 by lia. change 15 with (Z.ones 4). rewrite !Z.land_ones by lia.
    f_equal.
    + rewrite Z.div_add_l by lia. rewrite (Z.div_small (_ + _) (2 ^ 8)) by lia. rewrite Z.add_0_r.
      rewrite (Z.mod_small d1) by lia. rewrite Z.mod_small; lia.
    + replace (d1 * 2 ^ 8 + (d2 * 2 ^ 4 + d3)) with ((d1 * 16 + d2) * 2 ^ 4 + d3) by lia.
      rewrite Z.div_add_l by lia. rewrite (Z.div_small d3) by lia. rewrite Z.add_0_r, Z.add_comm, Z.mod_add by lia.
      rewrite (Z.mod_small d2) by lia. rewrite Z.mod_small; lia.
    + replace (d1 * 2 ^ 8 + (d2 * 2 ^ 4 + d3)) with (d3 + (d1 * 16 + d2) * 2 ^ 4) by lia.
      rewrite Z.mod_add by lia. rewrite (Z.mod_small d3) by lia. rewrite Z.mod_small; lia.
  - intros s ds H H3 H6. destruct (hex_ascii _ _ H) as [L B].
    destruct (hex_sum_spec _ _ H 0 ltac:(lia)) as (S1 & S2 & _). cbv zeta in S1, S2. rewrite Z.mul_0_l, Z.add_0_l in S1, S2.
    split; intro Hv; cbn [color_of].
    + rewrite S1 by exact Hv.
      assert (L7 : byte_len (35%N :: s) = N.succ (N.of_nat (List.length ds))).
      { unfold byte_len in *. cbn [fold_right]. rewrite L. change (len_utf8 35) with 1%N. lia. }
      rewrite L7. destruct (N.eqb_spec (N.succ (N.of_nat (List.length ds))) 7); [lia|].
      destruct (N.eqb_spec (N.succ (N.of_nat (List.length ds))) 4); [lia|]. reflexivity.
    + rewrite S2 by (try exact Hv; lia). reflexivity.
  - intros v Hv. destruct v; try reflexivity. exfalso. eapply Hv. reflexivity.
  - intros m -> Hm. unfold alpha_of, f32_as, saturate. destruct (Z.leb_spec 0 m); [|lia]. destruct (Z.leb_spec m (255 * ONE)); [|lia].
    cbn [andb]. rewrite Z.quot_div_nonneg by (try reflexivity; lia).
    assert (0 <= m / ONE <= 255).
    { split; [apply Z.div_pos; [lia|reflexivity]|]. replace 255 with (255 * ONE / ONE) by (apply Z.div_mul; discriminate).
      apply Z.div_le_mono; [reflexivity|lia]. }
    destruct (Z.ltb_spec (m / ONE) 0); [lia|]. destruct (Z.gtb_spec (m / ONE) 255); lia.
  - intros m -> Hm. unfold alpha_of. destruct (Z.leb_spec 0 m), (Z.leb_spec m (255 * ONE)); cbn [andb]; try reflexivity. lia.
  - intro H. destruct alpha; try reflexivity. exfalso. eapply H. reflexivity.
Qed.
Print Assumptions C62_color_partial.

(** names of colours, from the DM reference *)
Definition named : list (string * (Z * Z * Z)) :=
  [("black", (0, 0, 0)); ("silver", (192, 192, 192)); ("gray", (128, 128, 128)); ("grey", (128, 128, 128));
   ("white", (255, 255, 255)); ("maroon", (128, 0, 0)); ("red", (255, 0, 0)); ("purple", (128, 0, 128));
   ("fuchsia", (255, 0, 255)); ("magenta", (255, 0, 255)); ("green", (0, 192, 0)); ("lime", (0, 255, 0));
   ("olive", (128, 128, 0)); ("gold", (128, 128, 0)); ("yellow", (255, 255, 0)); ("navy", (0, 0, 128));
   ("blue", (0, 0, 255)); ("teal", (0, 128, 128)); ("aqua", (0, 255, 255)); ("cyan", (0, 255, 255))]%string.

Theorem C62_named : forall alpha,
  (forall n x y z, In (n, (x, y, z)) named ->
     color_of (VString (lit n)) alpha = Some {| r := x; g := y; b := z; a := alpha_of alpha |}) /\
  (forall s, (forall s', s <> 35%N :: s') -> (forall n c, In (n, c) named -> s <> lit n) ->
     color_of (VString s) alpha = Some {| r := 255; g := 255; b := 255; a := alpha_of alpha |}).
Proof.
  intro alpha. split.
  - intros n x y z H. unfold named in H. cbn [In] in H.
    repeat (destruct H as [H|H]; [injection H as <- <- <- <-; reflexivity|]). destruct H.
  - intros s Hs Hn.
    assert (E : html_color s = None).
    { unfold html_color.
      assert (Hf : forall n c, In (n, c) named -> text_eqb s (lit n) = false).
      { intros n c Hin. destruct (text_eqb s (lit n)) eqn:E; [|reflexivity]. apply text_eqb_eq in E. exfalso. exact (Hn n c Hin E). }
      unfold named in Hf. cbn [In] in Hf.
      repeat match goal with |- context [text_eqb s (lit ?n)] => rewrite (Hf n _) by (repeat (first [left; reflexivity | right])) end.
      reflexivity. }
    destruct s as [|c s]; [cbn [color_of]; rewrite E; reflexivity|].
    cbn [color_of].
    assert (Hc : (c =? 35)%N = false) by (apply N.eqb_neq; intro K; subst; exact (Hs s eq_refl)).
    destruct c as [|p]; [rewrite E; reflexivity|].
    destruct (N.eq_dec (N.pos p) 35) as [K|K]; [apply N.eqb_neq in Hc; contradiction|].
    repeat (destruct p as [p|p|]; try (rewrite E; reflexivity)). exfalso. apply K. reflexivity.
Qed.
Print Assumptions C62_named.

(** C62, the sprite: with whole-number offsets that fit and a colour that can be read, each part of
    the sprite comes from its variables. *)
Theorem C62_sprite : forall (var : text -> value) x1 x2 x3 y1 y2 y3 c,
  int_of (var (lit "pixel_x")) x1 -> int_of (var (lit "pixel_w")) x2 -> int_of (var (lit "step_x")) x3 ->
  int_of (var (lit "pixel_y")) y1 -> int_of (var (lit "pixel_z")) y2 -> int_of (var (lit "step_y")) y3 ->
  - 2 ^ 31 <= x1 + x2 < 2 ^ 31 -> - 2 ^ 31 <= x1 + x2 + x3 < 2 ^ 31 ->
  - 2 ^ 31 <= y1 + y2 < 2 ^ 31 -> - 2 ^ 31 <= y1 + y2 + y3 < 2 ^ 31 ->
  color_of (var (lit "color")) (var (lit "alpha")) = Some c ->
  exists s, from_vars var = Some s /\
    ofs_x s = x1 + x2 + x3 /\ ofs_y s = y1 + y2 + y3 /\ color s = c /\
    (forall name, var (lit "icon") = VString name \/ var (lit "icon") = VResource name -> icon s = name) /\
    ((forall name, var (lit "icon") <> VString name /\ var (lit "icon") <> VResource name) -> icon s = []) /\
    (forall name, var (lit "icon_state") = VString name -> icon_state s = name) /\
    ((forall name, var (lit "icon_state") <> VString name) -> icon_state s = []) /\
    (forall d, var (lit "dir") = VFloat (Fin (Dmi.Model.to_int d * ONE)) -> sdir s = d) /\
    ((forall d f, var (lit "dir") = VFloat f -> f32_as (- 2 ^ 31) (2 ^ 31 - 1) f <> Dmi.Model.to_int d) -> sdir s = South) /\
    (forall n, (exists f, var (lit "plane") = VFloat f) -> int_of (var (lit "plane")) n -> plane s = n) /\
    ((forall f, var (lit "plane") <> VFloat f) -> plane s = 0) /\
    (forall f, var (lit "layer") = VFloat f -> layer s = layer_from_f32 f) /\
    ((forall f, var (lit "layer") <> VFloat f) -> layer s = layer_from_i16 2).
Proof.
  intros var x1 x2 x3 y1 y2 y3 c X1 X2 X3 Y1 Y2 Y3 BX BX' BY BY' Ec.
  assert (Hint : forall v n, int_of v n -> or (to_int v) 0 = n).
  { intros v n H. destruct v as [| | |f|]; cbn [int_of to_int or] in *; try congruence.
    destruct f as [|neg|m]; try contradiction. destruct H as [B ->]. unfold f32_as, saturate.
    destruct (Z.ltb_spec (Z.quot m ONE) (- 2 ^ 31)); [lia|]. destruct (Z.gtb_spec (Z.quot m ONE) (2 ^ 31 - 1)); [lia|]. reflexivity. }
  unfold from_vars. rewrite Ec.
  rewrite (Hint _ _ X1), (Hint _ _ X2), (Hint _ _ X3), (Hint _ _ Y1), (Hint _ _ Y2), (Hint _ _ Y3).
  assert (Hi : forall z, - 2 ^ 31 <= z < 2 ^ 31 -> i32 z = Some z).
  { intros z H. unfold i32, in_i32, I32_MIN, I32_MAX. destruct (Z.leb_spec (- 2 ^ 31) z); [|lia].
    destruct (Z.leb_spec z (2 ^ 31 - 1)); [reflexivity|lia]. }
  rewrite (Hi (x1 + x2)), (Hi (y1 + y2)) by assumption. rewrite (Hi (x1 + x2 + x3)), (Hi (y1 + y2 + y3)) by assumption.
  eexists. split; [reflexivity|]. cbn [ofs_x ofs_y color icon icon_state sdir plane layer].
  split; [reflexivity|]. split; [reflexivity|]. split; [reflexivity|].
  split; [intros name [-> | ->]; reflexivity|].
  split. { intro H. destruct (var (lit "icon")) as [|s|s| |]; try reflexivity; destruct (H s) as [H1 H2]; congruence. }
  split; [intros name ->; reflexivity|].
  split. { intro H. destruct (var (lit "icon_state")) as [|s|s| |]; try reflexivity. exfalso. exact (H s eq_refl). }
  split. { intros d ->. destruct d; vm_compute; reflexivity. }
  split. { intro H. destruct (var (lit "dir")) as [|s|s|f|] eqn:Ed; try reflexivity. cbn [to_int].
           destruct (from_int (f32_as (- 2 ^ 31) (2 ^ 31 - 1) f)) as [d|] eqn:Ef; [|reflexivity].
           exfalso. apply (H d f eq_refl). symmetry.
           assert (Hinv : forall n e, from_int n = Some e -> Dmi.Model.to_int e = n).
           { clear. intros n e. unfold from_int. destruct n as [|p|p]; try discriminate.
             repeat (destruct p as [p|p|]; try discriminate); intros [= <-]; reflexivity. }
           apply Hinv. exact Ef. }
  split. { intros n [f Ef] Hn. unfold plane_of. specialize (Hint _ _ Hn). rewrite Ef in Hint |- *. exact Hint. }
  split. { intro H. unfold plane_of. destruct (var (lit "plane")); try reflexivity. exfalso. eapply H. reflexivity. }
  split; [intros f ->; reflexivity|].
  intro H. unfold layer_of. destruct (var (lit "layer")); try reflexivity. exfalso. eapply H. reflexivity.
Qed.
Print Assumptions C62_sprite.

(** C62, refuted: colours with many digits panic, and "#red", which is no colour, is not white. *)
Theorem C62_color_refuted :
  (exists v alpha, color_of v alpha = None) /\
  (exists s alpha c, (forall ds, ~ hex s ds) /\ color_of (VString (35%N :: s)) alpha = Some c /\ r c <> 255).
Proof.
  split; [exists (VString (lit "#ff0000ff00")), VNull; vm_compute; reflexivity|].
  exists (lit "red"), VNull, {| r := 0; g := 238; b := 221; a := 255 |}. split; [|split; [reflexivity|discriminate]].
  intros ds H. inversion H as [|c d s' ds' Hd H' E1 E2]; subst. apply digit_hex in Hd. discriminate.
Qed.
Print Assumptions C62_color_refuted.

Example C62_demo :
  hex (lit "1aF03c") [1; 10; 15; 0; 3; 12] /\
  color_of (VString (lit "#1aF03c")) (VFloat (Fin (100 * ONE))) = Some {| r := 26; g := 240; b := 60; a := 100 |} /\
  color_of (VString (lit "#f80")) VNull = Some {| r := 255; g := 136; b := 0; a := 255 |} /\
  (let var k := if text_eqb k (lit "icon") then VResource (lit "a.dmi")
                else if text_eqb k (lit "pixel_x") then VFloat (Fin (5 * ONE))
                else if text_eqb k (lit "step_x") then VFloat (Fin (- (7 * 2 ^ 148)))
                else if text_eqb k (lit "dir") then VFloat (Fin (4 * ONE))
                else if text_eqb k (lit "layer") then VFloat (Fin (7 * 2 ^ 148)) else VNull in
   from_vars var = Some {| icon := lit "a.dmi"; icon_state := []; sdir := East;
     color := {| r := 255; g := 255; b := 255; a := 255 |}; ofs_x := 2; ofs_y := 0; plane := 0;
     layer := {| whole := 3; frac := 32768 |} |}).
Proof.
  split; [|vm_compute; auto].
  do 2 (apply hex_cons; [split; [discriminate|left; reflexivity]|]). apply hex_cons; [split; [discriminate|right; reflexivity]|].
  do 3 (apply hex_cons; [split; [discriminate|left; reflexivity]|]). constructor.
Qed.
