(** * Properties C51 and C52: color gradients and plot attributes. *)
From Coq Require Import List Bool Arith ZArith Lia String Ascii Reals QArith Qcanon.
From Flocq Require Import Core BinarySingleNaN.
From Verif Require Import Base Names SmModel NetModel Float64 PlotModel GradProofs GradStrings PlotAttrs.
Import ListNotations.
Local Open Scope nat_scope.
Local Open Scope string_scope.

(** C51: color_gradient_string(from, to, steps) has steps+1 colors, starts with from and ends with to, and every
    channel stays between its end values.

    Proved for every pair of colors with an alpha channel and every positive number of steps below 2^53: the
    number of colors, the start, and that every channel is at most one below where it should be (so the end is at
    most one off in each channel); the weights are 1/(steps+1) to two decimals.  Missing: the exact end and the
    exact range, which are false for some numbers of steps (below) and true for powers of two. *)
Theorem C51_gradient_partial from to f t n : color_text from f -> color_text to t -> (1 <= n < 2 ^ 53)%Z ->
  exists segs colors h,
    color_gradient_string from to n = Ok (String.concat ":" segs) /\
    Z.of_nat (List.length colors) = (n + 1)%Z /\
    Forall2 (fun s c => segment_text s c h) segs colors /\
    (Rabs (IZR h - 100 / (IZR n + 1)) <= 1 / 2 + eps40)%R /\
    nth_error colors 0 = Some f /\
    (forall i c, nth_error colors i = Some c -> each (fun a b x => near a b n (Z.of_nat i) x) f t c).
Proof. exact (gradient_says from to f t n). Qed.
Print Assumptions C51_gradient_partial.

Theorem C51_power_of_two from to f t k : color_text from f -> color_text to t -> (0 <= k <= 44)%Z ->
  exists segs colors h,
    color_gradient_string from to (2 ^ k) = Ok (String.concat ":" segs) /\
    Z.of_nat (List.length colors) = (2 ^ k + 1)%Z /\
    Forall2 (fun s c => segment_text s c h) segs colors /\
    nth_error colors 0 = Some f /\ nth_error colors (Z.to_nat (2 ^ k)) = Some t /\
    (forall i c, nth_error colors i = Some c -> each (fun a b x => x = Zfloor (exact a b (2 ^ k) (Z.of_nat i)) /\ (Z.min a b <= x <= Z.max a b)%Z) f t c).
Proof. exact (gradient_power from to f t k). Qed.
Print Assumptions C51_power_of_two.

(** Colors without an alpha channel are read as if it were 00, that is, fully transparent. *)
Theorem C51_no_alpha r g b x y z : byte_text r x -> byte_text g y -> byte_text b z -> forall to n,
  color_gradient_string ("#" ++ r ++ g ++ b) to n = color_gradient_string ("#" ++ r ++ g ++ b ++ "00") to n /\
  color_gradient_string to ("#" ++ r ++ g ++ b) n = color_gradient_string to ("#" ++ r ++ g ++ b ++ "00") n.
Proof. intros Hr Hg Hb to n. unfold color_gradient_string. rewrite (no_alpha r g b x y z Hr Hg Hb). auto. Qed.
Print Assumptions C51_no_alpha.

Ltac byte i j := eexists _, _, i, j; split; [reflexivity|]; split; [first [left; reflexivity|right; reflexivity]|]; split; [first [left; reflexivity|right; reflexivity]|reflexivity].

Example ex_white : color_text "#FFFFFF33" (mkRgba 255 255 255 51).
Proof. exists "FF", "FF", "FF", "33". split; [reflexivity|]. cbn [red green blue alpha]. repeat split; [byte 15%nat 15%nat|byte 15%nat 15%nat|byte 15%nat 15%nat|byte 3%nat 3%nat]. Qed.
Example ex_blue : color_text "#1F78B4aa" (mkRgba 31 120 180 170).
Proof. exists "1F", "78", "B4", "aa". split; [reflexivity|]. cbn [red green blue alpha]. repeat split; [byte 1%nat 15%nat|byte 7%nat 8%nat|byte 11%nat 4%nat|byte 10%nat 10%nat]. Qed.
Example ex_gradient : color_gradient_string "#FFFFFF33" "#1F78B4aa" 2 = Ok "#ffffff33;0.33:#8fbbd96e;0.33:#1f78b4aa;0.33".
Proof. vm_compute. reflexivity. Qed.
(** The gradient of EDGE_STYLE.STRONG is not exact in the middle but ends well; the hypotheses are met. *)
Example ex_gradient_30 : exists segs colors h,
    color_gradient_string "#FFFFFF33" "#1F78B4aa" 30 = Ok (String.concat ":" segs) /\ Z.of_nat (List.length colors) = 31%Z /\
    Forall2 (fun s c => segment_text s c h) segs colors /\ nth_error colors 0 = Some (mkRgba 255 255 255 51).
Proof.
  destruct (C51_gradient_partial _ _ _ _ 30 ex_white ex_blue) as (s & c & h & A & B & C & _ & D & _); [lia|]. exists s, c, h. auto.
Qed.

(** The text between colons. *)
Fixpoint split_colons (s : string) : list string :=
  match s with
  | EmptyString => [""]
  | String c r => if Ascii.eqb c ":"%char then "" :: split_colons r
                  else match split_colons r with x :: l => String c x :: l | [] => [String c ""] end
  end.

(** The end is missed: with 49 steps from black to #010101 every color is black. *)
Theorem C51_end_refuted : ~ (forall from to f t n s, color_text from f -> color_text to t -> (1 <= n < 2 ^ 53)%Z ->
  color_gradient_string from to n = Ok s -> exists x w h, last (split_colons s) "" = x ++ ";" ++ w /\ color_text x t /\ weight_text w h).
Proof.
  intros H. destruct (color_gradient_string "#000000ff" "#010101ff" 49) as [s|e] eqn:E; [|vm_compute in E; discriminate].
  destruct (H "#000000ff" "#010101ff" (mkRgba 0 0 0 255) (mkRgba 1 1 1 255) 49%Z s) as (x & w & h & L & X & _); auto; try lia.
  - exists "00", "00", "00", "ff". split; [reflexivity|]. cbn [red green blue alpha]. repeat split; [byte 0%nat 0%nat|byte 0%nat 0%nat|byte 0%nat 0%nat|byte 15%nat 15%nat].
  - exists "01", "01", "01", "ff". split; [reflexivity|]. cbn [red green blue alpha]. repeat split; [byte 0%nat 1%nat|byte 0%nat 1%nat|byte 0%nat 1%nat|byte 15%nat 15%nat].
  - assert (S : last (split_colons s) "" = "#000000ff;0.02") by (vm_compute in E; injection E as <-; vm_compute; reflexivity).
    rewrite S in L. destruct X as (r & g & b & a & -> & Hr & _). destruct Hr as (c1 & c2 & i & j & -> & _ & D2 & V). cbn in L. injection L as <- <- _.
    pose proof (digit_hex_val _ _ D2) as Q. cbn in Q. cbn [red] in V. assert (j = 0%nat) by (injection Q; lia). lia.
Qed.
Print Assumptions C51_end_refuted.

(** A channel leaves the range of its ends: from #23 down to #06 in 7 steps ends at #05. *)
Theorem C51_range_refuted : exists s, color_gradient_string "#232323ff" "#060606ff" 7 = Ok s /\ exists x, In x (split_colons s) /\ prefix "#050505ff" x = true.
Proof. eexists. split; [vm_compute; reflexivity|]. eexists. split; [vm_compute; do 7 right; left; reflexivity|reflexivity]. Qed.
Print Assumptions C51_range_refuted.

(** The documented example is fully transparent from start to end, and zero steps is an error. *)
Theorem C51_alpha_refuted : color_gradient_string "#000000" "#FFFFFF" 2 = Ok "#00000000;0.33:#7f7f7f00;0.33:#ffffff00;0.33".
Proof. vm_compute. reflexivity. Qed.
Theorem C51_zero_refuted : color_gradient_string "#000000ff" "#010101ff" 0 = Err ZeroDivisionError.
Proof. reflexivity. Qed.

(** C52: for each node and edge a specific attribute overrides an all-nodes/edges attribute, which overrides the
    default, and the plotted structure is never modified (nor are the styles: the whole heap is kept). *)
Theorem C52_precedence ns es h sm all_node all_edge node edge :
  separate h sm -> (ns < List.length h)%nat -> (es < List.length h)%nat ->
  (forall d, In d ([hread h ns; hread h es; all_node; all_edge] ++ map snd node ++ map snd edge)%list -> NoDup (map fst d)) -> NoDup (map fst node) -> NoDup (map fst edge) ->
  exists h' g, add_attributes ns es h sm all_node all_edge node edge = (h', g) /\
    firstn (List.length h) h' = h /\
    map fst (pg_nodes g) = map fst (pg_nodes sm) /\ map fst (pg_edges g) = map fst (pg_edges sm) /\
    (forall a, In a (map snd (pg_nodes g) ++ map snd (pg_edges g))%list -> (List.length h <= a)%nat) /\
    (forall n a0 a k, In (n, a0) (pg_nodes sm) -> In (n, a) (pg_nodes g) ->
       attr (hread h' a) k = first_of [attr_of label_eqb node n k; attr all_node k; attr (hread h ns) k; (if String.eqb k "label" then Some (label_text n) else None); attr (hread h a0) k]) /\
    (forall e a0 a k, In (e, a0) (pg_edges sm) -> In (e, a) (pg_edges g) ->
       attr (hread h' a) k = first_of [attr_of edge_eqb edge e k; attr all_edge k; attr (hread h es) k; attr (hread h a0) k]).
Proof. exact (attributes_precedence ns es h sm all_node all_edge node edge). Qed.
Print Assumptions C52_precedence.

(** A heap with the two styles, two nodes and an edge with a weight. *)
Definition ex_heap : heap := [node_normal; edge_normal; []; [("shape", AStr "box"); ("note", AStr "mine")]; [("weight", ANum (Q2Qc 2))]].
Definition ex_sm : pgraph := mkPg [(LStr "a", 2%nat); (LStr "b", 3%nat)] [((LStr "a", LStr "b"), 4%nat)].
Definition ex_node : list (label * list (string * aval)) := [(LStr "b", [("color", AStr "red")]); (LStr "zzz", [("color", AStr "blue")])].

Ltac nodup := repeat (constructor; [cbn; intuition discriminate|]); constructor.

Example ex_separate : separate ex_heap ex_sm.
Proof. constructor; cbn; [nodup|nodup|nodup|intros a [<-|[<-|[<-|[]]]]; lia]. Qed.

Example ex_plot_dicts : forall d, In d ([hread ex_heap 0; hread ex_heap 1; [("color", AStr "green"); ("width", ANone)]; []] ++ map snd ex_node ++ map snd (@nil (label * label * list (string * aval))))%list -> NoDup (map fst d).
Proof. cbn [app map snd ex_node In]. intros d [<-|[<-|[<-|[<-|[<-|[<-|[]]]]]]]; cbn; nodup. Qed.

Example ex_plot : exists h' g, add_attributes 0 1 ex_heap ex_sm [("color", AStr "green"); ("width", ANone)] [] ex_node [] = (h', g) /\
  firstn 5 h' = ex_heap /\ forall a, In (LStr "b", a) (pg_nodes g) -> attr (hread h' a) "color" = Some (AStr "red") /\ attr (hread h' a) "width" = Some ANone /\ attr (hread h' a) "shape" = Some (AStr "circle") /\ attr (hread h' a) "note" = Some (AStr "mine").
Proof.
  assert (N1 : NoDup (map fst ex_node)) by (cbn [map fst ex_node]; nodup).
  destruct (C52_precedence 0 1 ex_heap ex_sm [("color", AStr "green"); ("width", ANone)] [] ex_node [] ex_separate (Nat.lt_0_succ 4) (proj1 (Nat.succ_lt_mono 0 4) (Nat.lt_0_succ 3)) ex_plot_dicts N1 (NoDup_nil _)) as (h' & g & A & B & _ & _ & _ & N & _).
  exists h', g. split; [exact A|]. split; [exact B|]. intros a Ha.
  assert (I : In (LStr "b", 3%nat) (pg_nodes ex_sm)) by (cbn; auto). rewrite !(N (LStr "b") 3%nat a) by auto. repeat split; reflexivity.
Qed.
