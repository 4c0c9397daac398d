(** * PlotModel: model of causalnex/plots/plots.py.

    Not modelled: pygraphviz (to_agraph, layout); the graph attributes passed to it are in FigModel.v. *)
From Coq Require Import List Bool Arith ZArith Lia String Ascii QArith Qcanon.
From Flocq Require Import BinarySingleNaN.
From Verif Require Import Base Names SmModel NetModel Float64.
Import ListNotations.
Local Open Scope string_scope.
Local Open Scope list_scope.

(** ** color_gradient_string *)

(** The value of a character of the class [0-9a-fA-F] (plots.py:164, 168, 171) *)
Definition hex_val (c : ascii) : option Z :=
  let n := Z.of_nat (nat_of_ascii c) in
  if (48 <=? n)%Z && (n <=? 57)%Z then Some (n - 48)%Z
  else if (97 <=? n)%Z && (n <=? 102)%Z then Some (n - 87)%Z
  else if (65 <=? n)%Z && (n <=? 70)%Z then Some (n - 55)%Z
  else None.

(** One group of the regular expression and [int(v, 16)]; the rest of the string. (plots.py:164, 168, 171) *)
Definition hex_group (s : string) : option (Z * string) :=
  match s with
  | String a (String b r) => match hex_val a, hex_val b with Some x, Some y => Some ((16 * x + y)%Z, r) | _, _ => None end
  | _ => None
  end.

(** The last, repeated group captures its last repetition. (plots.py:164, 168, 171) *)
Fixpoint last_group (s : string) (acc : option Z) : option Z :=
  match s with
  | String a (String b r) => match hex_val a, hex_val b with Some x, Some y => last_group r (Some (16 * x + y)%Z) | _, _ => acc end
  | _ => acc
  end.

(** plots.py:163-172: [color_regex.match(color).groups()[1:]]; without a match None has no groups. *)
Definition match_color (s : string) : res (list Z) :=
  match s with
  | String h s0 =>
      if Ascii.eqb h "#"%char then
        match hex_group s0 with
        | Some (r, s1) => match hex_group s1 with
          | Some (g, s2) => match hex_group s2 with
            | Some (b, s3) => Ok [r; g; b; match last_group s3 None with Some a => a | None => 0%Z end]
            | None => Err AttributeError end
          | None => Err AttributeError end
        | None => Err AttributeError end
      else Err AttributeError
  | EmptyString => Err AttributeError
  end.

(** [format(n, "02x")] for n between 0 and 255; no other numbers occur (GradProofs.v). (plots.py:179) *)
Definition hex_char (z : Z) : ascii := ascii_of_nat (Z.to_nat (if (z <? 10)%Z then 48 + z else 87 + z)%Z).
(** plots.py:179 *)
Definition format02x (z : Z) : string := String (hex_char (z / 16)) (String (hex_char (z mod 16)) EmptyString).

(** ["%.2f" % x] for a float that is not negative: the nearest number of hundredths, ties to even. (plots.py:185) *)
Definition hundredths (x : f64) : Z :=
  match x with
  | B754_finite _ m e _ =>
      if (0 <=? e)%Z then (Zpos m * 2 ^ e * 100)%Z
      else let den := (2 ^ (- e))%Z in
           let q := (Zpos m * 100 / den)%Z in
           let r := (Zpos m * 100 mod den)%Z in
           match Z.compare (2 * r) den with
           | Lt => q
           | Gt => (q + 1)%Z
           | Eq => if Z.even q then q else (q + 1)%Z
           end
  | _ => 0%Z
  end.
(** plots.py:185 *)
Definition digit (z : Z) : string := String (hex_char z) EmptyString.
(** plots.py:185 *)
Definition format2f (x : f64) : string :=
  let h := hundredths x in (dec (Z.to_nat (h / 100)) ++ "." ++ digit (h mod 100 / 10) ++ digit (h mod 10))%string.

(** plots.py:181, 185 *)
Definition zrange (n : Z) : list Z := map Z.of_nat (seq 0 (Z.to_nat n)).

(** plots.py:174-182: one channel of color [i]; [d] is the difference between colors. *)
Definition channel (f : Z) (d : f64) (i : Z) : Z := ftrunc (fplus (of_Z f) (fmul d (of_Z i))).

(** plots.py:138-186 color_gradient_string.  Integers are converted to floats for division; Python rounds the
    quotient of integers beyond 2^53 directly. *)
Definition color_gradient_string (from_color to_color : string) (steps : Z) : res string :=
  do f <- match_color from_color;
  do t <- match_color to_color;
  if (steps =? 0)%Z then Err ZeroDivisionError
  else
    let delta := map (fun ft => fdiv (of_Z (snd ft - fst ft)) (of_Z steps)) (combine f t) in
    let colors := map (fun i => ("#" ++ String.concat "" (map (fun fd => format02x (channel (fst fd) (snd fd) i)) (combine f delta)))%string) (zrange (steps + 1)) in
    Ok (String.concat ":" (map (fun i => (nth (Z.to_nat i) colors "" ++ ";" ++ format2f (fdiv (of_Z 1) (of_Z (steps + 1))))%string) (zrange (steps + 1)))).

(** ** _add_attributes *)

(** Attribute dictionaries are mutable objects: a heap of them, and graphs hold addresses. (plots.py:200-222) *)
Notation adict := (list (string * aval)) (only parsing).
(** plots.py:196-222 *)
Definition heap : Type := list adict.
(** plots.py:196-222 *)
Definition hread (h : heap) (a : nat) : adict := nth a h [].
(** plots.py:196-222 *)
Definition hset (h : heap) (a : nat) (d : adict) : heap := firstn a h ++ d :: skipn (S a) h.

(** The attribute dictionaries of the nodes and of the edges of a StructureModel; successors and predecessors
    share the dictionary of an edge. (plots.py:190, 196) *)
Record pgraph := mkPg { pg_nodes : list (label * nat); pg_edges : list (label * label * nat) }.

(** [deepcopy(sm)]: every dictionary is copied once (here the whole heap is). (plots.py:196) *)
Definition deepcopy (h : heap) (g : pgraph) : heap * pgraph :=
  (h ++ h, mkPg (map (fun na => (fst na, List.length h + snd na)%nat) (pg_nodes g)) (map (fun ea => (fst ea, List.length h + snd ea)%nat) (pg_edges g))).

(** networkx set_node_attributes(G, value, name) and set_edge_attributes(G, value, name) for a value that is
    not a dictionary (plots.py:208, 216) *)
Definition set_one (addrs : list nat) (k : string) (v : aval) (h : heap) : heap :=
  fold_left (fun h a => hset h a (dset String.eqb (hread h a) k v)) addrs h.

(** plots.py:222 *)
Definition edge_eqb (e f : label * label) : bool := label_eqb (fst e) (fst f) && label_eqb (snd e) (snd f).

(** networkx set_node_attributes(G, values) and set_edge_attributes(G, values): unknown keys are skipped.
    (plots.py:220, 222) *)
Definition set_specific {K} (eqb : K -> K -> bool) (addrs : list (K * nat)) (values : list (K * adict)) (h : heap) : heap :=
  fold_left (fun h kd => match dget eqb addrs (fst kd) with
                         | Some a => hset h a (dupdate String.eqb (hread h a) (snd kd))
                         | None => h
                         end) values h.

(** plots.py:200 *)
Definition newline : string := String (ascii_of_nat 10) EmptyString.

(** plots.py:189-224 _add_attributes.  [node_style] and [edge_style] are the addresses of NODE_STYLE.NORMAL and
    EDGE_STYLE.NORMAL; arguments that are None are empty dictionaries here (both are falsy). *)
Definition add_attributes (node_style edge_style : nat) (h : heap) (sm : pgraph)
  (all_node all_edge : adict) (node : list (label * adict)) (edge : list (label * label * adict)) : heap * pgraph :=
  let '(h1, g) := deepcopy h sm in
  let h2 := fold_left (fun h na => hset h (snd na) (dset String.eqb (hread h (snd na)) "label" (AStr (str_of (fst na) ++ newline ++ newline ++ " ")%string))) (pg_nodes g) h1 in
  let na := List.length h2 in
  let h3 := h2 ++ [hread h2 node_style] in
  let h4 := hset h3 na (dupdate String.eqb (hread h3 na) all_node) in
  let h5 := fold_left (fun h kv => set_one (map snd (pg_nodes g)) (fst kv) (snd kv) h) (hread h4 na) h4 in
  let ea := List.length h5 in
  let h6 := h5 ++ [hread h5 edge_style] in
  let h7 := hset h6 ea (dupdate String.eqb (hread h6 ea) all_edge) in
  let h8 := fold_left (fun h kv => set_one (map snd (pg_edges g)) (fst kv) (snd kv) h) (hread h7 ea) h7 in
  let h9 := set_specific label_eqb (pg_nodes g) node h8 in
  let h10 := set_specific edge_eqb (pg_edges g) edge h9 in
  (h10, g).

(** plots.py:253-264 NODE_STYLE.NORMAL and plots.py:286-291 EDGE_STYLE.NORMAL; True is [AObj 1]. *)
Definition node_normal : adict :=
  [("fontcolor", AStr "#FFFFFFD9"); ("fontname", AStr "Helvetica"); ("shape", AStr "circle"); ("fixedsize", AObj 1); ("style", AStr "filled");
   ("fillcolor", AStr "#4a90e2d9"); ("color", AStr "#4a90e220"); ("width", ANum (Q2Qc (3 # 20))); ("penwidth", AStr "20"); ("fontsize", ANum (Q2Qc 15))].
(** plots.py:286-291 *)
Definition edge_normal : adict :=
  [("color", match color_gradient_string "#FFFFFF33" "#ffffffaa" 30 with Ok s => AStr s | Err _ => ANone end);
   ("arrowhead", AStr "normal"); ("penwidth", ANum (Q2Qc 1)); ("arrowsize", ANum (Q2Qc (4 # 5)))].
