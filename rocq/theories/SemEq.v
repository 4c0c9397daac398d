(** * SemEq: the values of one node, and the coefficients. *)
From Coq Require Import List Bool Arith ZArith Lia String QArith Qcanon Permutation Reals Lra.
From Verif Require Import Base Names Digraph NetModel SmModel SmProofs QcX NotearsModel NotearsProofs TorchModel DiscModel DiscProofs MapperModel MapperProofs MapperThms AcycLink OrdProofs PoisModel PoisProofs GenModel SemModel SemProofs SemThms.
Import ListNotations.
Local Open Scope string_scope.
Local Open Scope list_scope.
Local Open Scope nat_scope.

(** ** Specification of the values of one node *)

(** A threshold for the latent values [l]: 0, unless fewer than 5% or more than 95% of them are positive;
    then the 5% or 95% quantile. *)
Definition threshold (l : list Qc) (th : Qc) : Prop :=
  let pos := List.length (filter (qlt 0) l) in
  (20 * pos < List.length l -> th = quantile1 (qsort l) (Q2Qc (1 # 20))) /\
  (19 * List.length l < 20 * pos -> th = quantile1 (qsort l) (Q2Qc (19 # 20))) /\
  (List.length l <= 20 * pos -> 20 * pos <= 19 * List.length l -> th = 0%Qc).

(** The values [val i k] of row i and feature k follow from the latent means [lat i k] and the draws. *)
Definition follows (n : nat) (pct : Qc) (dr : sdraws) (sc : Qc) (is_root : bool) (v : label) (t : vtype) (lat val : nat -> nat -> Qc) : Prop :=
  let noisy i k := (lat i k + sc * sd_noise dr v i k)%Qc in
  match t with
  | TContinuous => forall i, i < n -> val i 0 = noisy i 0
  | TBinary => exists th, threshold (map (fun i => noisy i 0) (seq 0 n)) th /\
      forall i, i < n -> (val i 0 = 1%Qc /\ (th < noisy i 0%nat)%Qc) \/ (val i 0 = 0%Qc /\ (noisy i 0%nat <= th)%Qc)
  | TCount => forall i, i < n ->
      ((sd_zero dr v i < pct)%Qc /\ val i 0 = 0%Qc) \/
      ((pct <= sd_zero dr v i)%Qc /\ exists c rate, val i 0 = qnat c /\ smallest_count (Z.to_nat 5000) rate (sd_poisson dr v i) c /\
         let x := realq (lat i 0%nat + (if is_root then sd_root dr v i else 0))%Qc in
         ((x < 0)%R -> rate = exp x) /\ ((0 <= x)%R -> rate = x))
  | TCategorical c => forall i, i < n -> exists k, k < c /\ (forall k', k' < c -> (noisy i k' <= noisy i k)%Qc) /\
      (forall k', k' < k -> (noisy i k' < noisy i k)%Qc) /\ (forall k', k' < c -> val i k' = if k' =? k then 1%Qc else 0%Qc)
  end.

(** ** Lists *)
Lemma nth_map_seq {A} (f : nat -> A) n i d : i < n -> nth i (map f (seq 0 n)) d = f i.
Proof. intros H. rewrite (nth_indep _ d (f 0)), (map_nth f), seq_nth by (rewrite ?map_length, ?seq_length; auto). auto. Qed.

Lemma nth_map_combine {A B C} (f : A * B -> C) l l' i da db dc : i < List.length l -> i < List.length l' -> nth i (map f (combine l l')) dc = f (nth i l da, nth i l' db).
Proof.
  revert l' i. induction l as [|a l IH]; intros [|b l'] i H H'; cbn in H, H'; try lia. destruct i; cbn; auto. apply IH; lia.
Qed.

(** ** Noise *)
Lemma add_noise_spec di ns r mean z l n : add_noise di ns r mean z = Ok l -> List.length mean = n -> List.length z = n ->
  List.length l = n /\ forall i, i < n -> nth i l 0%Qc = (nth i mean 0 + (if r then 1 else ns) * nth i z 0)%Qc.
Proof.
  unfold add_noise. intros H Lm Lz. destruct (noise_scale di ns r) as [sc|e] eqn:E; cbn [bind] in H; [|discriminate]. injection H as <-.
  assert (sc = if r then 1%Qc else ns). { unfold noise_scale in E. destruct di as [s|]; [|discriminate]. destruct (smem s _); [|discriminate]. destruct (String.eqb s "student-t"); [congruence|]. destruct (qlt _ 0); congruence. }
  subst sc. split; [rewrite map_length, combine_length; lia|]. intros i Hi. rewrite (nth_map_combine _ _ _ _ 0%Qc 0%Qc) by lia. reflexivity.
Qed.

Lemma add_noise_ok di ns r mean z s : di = DName s -> In s known_distributions -> (0 <= ns)%Qc -> exists l, add_noise di ns r mean z = Ok l.
Proof.
  intros -> Hs Hn. unfold add_noise, noise_scale. replace (smem s known_distributions) with true. 2:{ symmetry. apply (memb_In _ String.eqb_spec). auto. }
  destruct (String.eqb s "student-t"); cbn [bind]; eauto. destruct (qlt (if r then 1%Qc else ns) 0) eqn:Q; cbn [bind]; eauto. exfalso. apply qlt_iff in Q. destruct r; [discriminate Q|]. apply (Qcle_not_lt _ _ Hn Q).
Qed.

(** ** Binary *)
Lemma ratio_this a b : (this (ratio a b) == inject_Z (Z.of_nat a) / inject_Z (Z.of_nat b))%Q.
Proof. unfold ratio, Qcdiv, Qcmult, Qcinv, Q2Qc. cbn [this]. rewrite !Qred_correct. reflexivity. Qed.

Lemma ratio_lt a b : 0 < b -> qlt (ratio a b) pct5 = (20 * a <? b).
Proof.
  intros Hb. apply eq_true_iff_eq. rewrite qlt_iff, Nat.ltb_lt. unfold Qclt. rewrite ratio_this. change (this pct5) with (1 # 20)%Q.
  assert (P : (0 < inject_Z (Z.of_nat b))%Q) by (unfold Qlt, inject_Z; cbn [Qnum Qden]; lia). split; intros H.
  - assert (Q : (inject_Z (Z.of_nat a) < (1 # 20) * inject_Z (Z.of_nat b))%Q). { apply (Qmult_lt_r _ _ _ P) in H. unfold Qdiv in H. rewrite <- Qmult_assoc, (Qmult_comm (/ _)), Qmult_inv_r, Qmult_1_r in H; auto. intros E. rewrite E in P. discriminate P. }
    unfold Qlt, Qmult, inject_Z in Q. cbn [Qnum Qden] in Q. lia.
  - apply Qlt_shift_div_r; auto. unfold Qlt, Qmult, inject_Z. cbn [Qnum Qden]. lia.
Qed.
Lemma lt_ratio a b : 0 < b -> qlt (1 - pct5)%Qc (ratio a b) = (19 * b <? 20 * a).
Proof.
  intros Hb. apply eq_true_iff_eq. rewrite qlt_iff, Nat.ltb_lt. unfold Qclt. rewrite ratio_this. change (this (1 - pct5)%Qc) with (19 # 20)%Q.
  assert (P : (0 < inject_Z (Z.of_nat b))%Q) by (unfold Qlt, inject_Z; cbn [Qnum Qden]; lia). split; intros H.
  - assert (Q : ((19 # 20) * inject_Z (Z.of_nat b) < inject_Z (Z.of_nat a))%Q). { apply (Qmult_lt_r _ _ _ P) in H. unfold Qdiv in H. rewrite <- (Qmult_assoc _ (/ _)), (Qmult_comm (/ _)), Qmult_inv_r, Qmult_1_r in H; auto. intros E. rewrite E in P. discriminate P. }
    unfold Qlt, Qmult, inject_Z in Q. cbn [Qnum Qden] in Q. lia.
  - apply Qlt_shift_div_l; auto. unfold Qlt, Qmult, inject_Z. cbn [Qnum Qden]. lia.
Qed.

Lemma binary_spec l : exists th, threshold l th /\ binary_labels l = above th l.
Proof.
  destruct l as [|a l']; [exists 0%Qc; split; [repeat split; cbn; intros; lia || auto|reflexivity]|].
  set (l := a :: l'). assert (Ll : 0 < List.length l) by (cbn; lia). unfold binary_labels. fold l. change (match l with [] => [] | _ :: _ => ?x end) with x. cbv zeta. unfold qcount.
  rewrite ratio_lt, lt_ratio by auto. change (1 - pct5)%Qc with (Q2Qc (19 # 20)). unfold threshold. cbv zeta. set (pos := List.length (filter (qlt 0) l)).
  destruct (Nat.ltb_spec (20 * pos) (List.length l)) as [H1|H1]; [|destruct (Nat.ltb_spec (19 * List.length l) (20 * pos)) as [H2|H2]]; eexists; (split; [|reflexivity]); repeat split; intros; try lia; reflexivity.
Qed.

(** ** Argmax *)
Lemma qargmax_from_spec l : forall best bv i all, best < i -> nth best all 0%Qc = bv -> (forall j, j < i -> (nth j all 0 <= bv)%Qc) -> (forall j, j < best -> (nth j all 0 < bv)%Qc) ->
  (forall j, nth (i + j) all 0%Qc = nth j l 0%Qc) -> List.length all = i + List.length l ->
  let k := qargmax_from best bv i l in k < List.length all /\ (forall j, j < List.length all -> (nth j all 0 <= nth k all 0)%Qc) /\ (forall j, j < k -> (nth j all 0 < nth k all 0)%Qc).
Proof.
  induction l as [|x l IH]; intros best bv i all Hb Eb Hle Hlt Hs Hl; cbn [qargmax_from].
  - cbn in Hl. rewrite Nat.add_0_r in Hl. rewrite Hl. cbv zeta. rewrite Eb. auto.
  - assert (Ex : nth i all 0%Qc = x) by (specialize (Hs 0); rewrite Nat.add_0_r in Hs; auto). assert (Hs' : forall j, nth (S i + j) all 0%Qc = nth j l 0%Qc) by (intros j; specialize (Hs (S j)); cbn [nth] in Hs; rewrite <- Hs; f_equal; lia). cbn [List.length] in Hl.
    destruct (qlt bv x) eqn:Q.
    + apply qlt_iff in Q. apply IH; auto; try lia.
      * intros j Hj. destruct (Nat.eq_dec j i) as [->|]; [rewrite Ex; apply Qcle_refl|]. apply Qcle_trans with bv; [apply Hle; lia|apply Qclt_le_weak; auto].
      * intros j Hj. apply Qcle_lt_trans with bv; auto.
    + apply qlt_false in Q. apply IH; auto; try lia. intros j Hj. destruct (Nat.eq_dec j i) as [->|]; [rewrite Ex; auto|]. apply Hle. lia.
Qed.
Lemma qargmax_spec l : l <> [] -> let k := qargmax l in k < List.length l /\ (forall j, j < List.length l -> (nth j l 0 <= nth k l 0)%Qc) /\ (forall j, j < k -> (nth j l 0 < nth k l 0)%Qc).
Proof.
  destruct l as [|x l]; [congruence|]. intros _. unfold qargmax. apply (qargmax_from_spec l 0 x 1 (x :: l)); auto.
  - intros j Hj. assert (j = 0) as -> by lia. apply Qcle_refl.
  - intros j Hj. lia.
Qed.

(** ** Counts *)
Lemma exp_relu_pos x : (0 <= exp_relu x)%R.
Proof. unfold exp_relu. destruct (Rlt_dec x 0) as [H|H]; [left; apply exp_pos|lra]. Qed.

Lemma Forall2_nth {A B} (P : A -> B -> Prop) l l' i da db : Forall2 P l l' -> i < List.length l -> P (nth i l da) (nth i l' db).
Proof. intros F. revert i. induction F; intros i Hi; cbn in Hi; [lia|]. destruct i; cbn; auto. apply IHF. lia. Qed.
Lemma Forall2_len {A B} (P : A -> B -> Prop) l l' : Forall2 P l l' -> List.length l = List.length l'.
Proof. intros F. induction F; cbn; auto. Qed.

Lemma count_spec pct (r : bool) eta ur uz up n : (0 <= pct)%Qc -> (pct <= 1)%Qc -> List.length eta = n -> List.length ur = n -> List.length uz = n -> List.length up = n ->
  (forall i, i < n -> (0 <= nth i up 0)%R /\ (nth i up 0 < 1)%R) ->
  exists c, sample_count (DNum pct) r eta ur uz up = Ok c /\ forall i, i < n ->
    ((nth i uz 0 < pct)%Qc /\ nth i c 0%Qc = 0%Qc) \/
    ((pct <= nth i uz 0)%Qc /\ exists k, nth i c 0%Qc = qnat k /\ smallest_count MAX_COUNT (exp_relu (realq (nth i eta 0 + (if r then nth i ur 0 else 0))%Qc)) (nth i up 0%R) k).
Proof.
  intros P0 P1 Le Lr Lz Lp Hu. unfold sample_count. replace (qlt pct 0 || qlt 1 pct) with false. 2:{ symmetry. apply orb_false_iff. rewrite !qlt_false. auto. }
  set (eta' := if r then map (fun p => fst p + snd p)%Qc (combine eta ur) else eta).
  assert (Le' : List.length eta' = n) by (unfold eta'; destruct r; auto; rewrite map_length, combine_length; lia).
  assert (Ee : forall i, i < n -> nth i eta' 0%Qc = (nth i eta 0 + (if r then nth i ur 0 else 0))%Qc). { intros i Hi. unfold eta'. destruct r; [rewrite (nth_map_combine _ _ _ _ 0%Qc 0%Qc) by lia; reflexivity|ring]. }
  set (lus := combine (map (fun e => exp_relu (realq e)) eta') up). assert (Ll : List.length lus = n) by (unfold lus; rewrite combine_length, map_length; lia).
  assert (En : forall i, i < n -> nth i lus (0%R, 0%R) = (exp_relu (realq (nth i eta' 0%Qc)), nth i up 0%R)). { intros i Hi. unfold lus. rewrite combine_nth by (rewrite map_length; lia). f_equal. rewrite (nth_indep _ 0%R (exp_relu (realq 0%Qc))) by (rewrite map_length; lia). apply (map_nth (fun e => exp_relu (realq e))). }
  destruct (poisson_inverse MAX_COUNT lus) as (c & E & F).
  { apply Forall_forall. intros lu Hlu. apply (In_nth _ _ (0%R, 0%R)) in Hlu. destruct Hlu as (i & Hi & <-). rewrite En by lia. cbn [fst snd]. split; [apply exp_relu_pos|apply Hu; lia]. }
  rewrite E. cbn [bind]. eexists. split; [reflexivity|]. intros i Hi. pose proof (Forall2_len _ _ _ F) as Lc. pose proof (Forall2_nth _ _ _ i (0%R, 0%R) 0 F ltac:(lia)) as S. cbv beta in S. rewrite En in S by auto. cbn [fst snd] in S. rewrite Ee in S by auto.
  rewrite (nth_map_combine _ _ _ _ 0%Qc 0) by lia. cbn [fst snd]. destruct (qlt (nth i uz 0%Qc) pct) eqn:Q.
  - left. apply qlt_iff in Q. auto.
  - right. apply qlt_false in Q. split; auto. exists (nth i c 0). split; auto.
Qed.

(** ** One node *)
Section Node.
Context (dr : sdraws) (d : list (string * dist)) (noise_std : Qc) (n : nat) (g : graph) (v : label).
Hypothesis Hpois : forall i, (0 <= sd_poisson dr v i)%R /\ (sd_poisson dr v i < 1)%R.
Local Notation rt := (root g v).
Local Notation sc := (if root g v then 1%Qc else noise_std).

Lemma rows_nth (f : nat -> Qc) i : i < n -> nth i (rows n f) 0%Qc = f i.
Proof. apply nth_map_seq. Qed.
Lemma rows_len (f : nat -> Qc) : List.length (rows n f) = n.
Proof. unfold rows. rewrite map_length, seq_length. auto. Qed.

Lemma node_follows t mu cs pct : dist_of d "count" = Ok (DNum pct) \/ t <> TCount -> node_value dr d noise_std n g v t mu = Ok cs -> List.length mu = List.length (spec_features (v, t)) -> (forall k, k < List.length mu -> List.length (nth k mu []) = n) ->
  follows n pct dr sc rt v t (fun i k => nth i (nth k mu []) 0%Qc) (fun i k => nth i (nth k cs []) 0%Qc).
Proof.
  intros Hc V L Ln. destruct t as [| | |c]; cbn [node_value follows] in *.
  - destruct (dist_of d "binary") as [di|]; cbn [bind] in V; [|discriminate]. unfold one_col, sample_binary in V. destruct (add_noise _ _ _ _ _) as [l|] eqn:A; cbn [bind] in V; [|discriminate]. injection V as <-. cbn [nth].
    destruct (add_noise_spec _ _ _ _ _ _ n A) as [Ll El]; [apply Ln; rewrite L; cbn; lia|apply rows_len|].
    assert (E : map (fun i => (nth i (nth 0%nat mu []) 0 + sc * sd_noise dr v i 0%nat)%Qc) (seq 0 n) = l).
    { apply nth_ext with 0%Qc 0%Qc; [rewrite map_length, seq_length; auto|]. intros i Hi. rewrite map_length, seq_length in Hi. rewrite nth_map_seq, El, rows_nth by auto. reflexivity. }
    rewrite E. destruct (binary_spec l) as (th & T & B). exists th. split; auto. intros i Hi. rewrite B. unfold above. rewrite (nth_indep _ 0%Qc (indicator (qlt th 0%Qc))), (map_nth (fun x => indicator (qlt th x))) by (rewrite map_length; lia).
    assert (Ei : (nth i (nth 0%nat mu []) 0 + sc * sd_noise dr v i 0%nat)%Qc = nth i l 0%Qc) by (rewrite El, rows_nth by auto; reflexivity). rewrite Ei. destruct (qlt th (nth i l 0%Qc)) eqn:Q; [left; apply qlt_iff in Q|right; apply qlt_false in Q]; auto.
  - destruct (dist_of d "continuous") as [di|]; cbn [bind] in V; [|discriminate]. unfold one_col in V. destruct (add_noise _ _ _ _ _) as [l|] eqn:A; cbn [bind] in V; [|discriminate]. injection V as <-. cbn [nth].
    destruct (add_noise_spec _ _ _ _ _ _ n A) as [Ll El]; [apply Ln; rewrite L; cbn; lia|apply rows_len|]. intros i Hi. rewrite El, rows_nth by auto. reflexivity.
  - destruct Hc as [Hc|Hc]; [|congruence]. rewrite Hc in V. cbn [bind] in V. unfold one_col in V. destruct (sample_count _ _ _ _ _ _) as [l|] eqn:A; cbn [bind] in V; [|discriminate]. injection V as <-. cbn [nth].
    assert (P : (0 <= pct)%Qc /\ (pct <= 1)%Qc). { unfold sample_count in A. destruct (qlt pct 0 || qlt 1 pct) eqn:Q; [discriminate|]. apply orb_false_iff in Q. rewrite !qlt_false in Q. auto. }
    destruct (count_spec pct rt (nth 0 mu []) (rows n (sd_root dr v)) (rows n (sd_zero dr v)) (map (sd_poisson dr v) (seq 0 n)) n (proj1 P) (proj2 P)) as (c & E & S); auto using rows_len.
    { apply Ln. rewrite L. cbn. lia. } { rewrite map_length, seq_length. auto. } { intros i Hi. rewrite nth_map_seq by auto. apply Hpois. }
    rewrite A in E. injection E as <-. intros i Hi. specialize (S i Hi). rewrite !rows_nth in S by auto. rewrite nth_map_seq in S by auto. destruct S as [S|(S1 & k & S2 & S3)]; [left; auto|right]. split; auto. exists k. eexists. split; auto. split; [exact S3|]. cbv zeta. unfold exp_relu. destruct (Rlt_dec _ 0) as [Q|Q]; split; intros; auto; lra.
  - destruct (dist_of d "categorical") as [di|]; cbn [bind] in V; [|discriminate]. unfold sample_categories in V. destruct (mapM _ _) as [ls|] eqn:A; cbn [bind] in V; [|discriminate].
    assert (Lf : List.length (spec_features (v, TCategorical c)) = c) by (unfold spec_features; cbn [snd]; rewrite map_length, seq_length; auto). rewrite Lf in L.
    set (zs := map (fun k => rows n (fun i => sd_noise dr v i k)) (seq 0 c)) in *. assert (Lz : List.length zs = c) by (unfold zs; rewrite map_length, seq_length; auto).
    pose proof (mapM_length _ _ _ A) as Lls. rewrite combine_length in Lls. assert (Lls' : List.length ls = c) by lia. apply mapM_ok in A.
    assert (El : forall k, k < c -> List.length (nth k ls []) = n /\ forall i, i < n -> nth i (nth k ls []) 0%Qc = (nth i (nth k mu []) 0 + sc * sd_noise dr v i k)%Qc).
    { intros k Hk. pose proof (Forall2_nth _ _ _ k ([], []) [] A) as Q. rewrite combine_length in Q. specialize (Q ltac:(lia)). cbv beta in Q. rewrite combine_nth in Q by lia. cbn [fst snd] in Q. unfold zs in Q. rewrite nth_map_seq in Q by auto.
      destruct (add_noise_spec _ _ _ _ _ _ n Q) as [Q1 Q2]; [apply Ln; lia|apply rows_len|]. split; auto. intros i Hi. rewrite Q2, rows_nth by auto. reflexivity. }
    intros i Hi. destruct ls as [|l0 ls']; [discriminate|]. set (ls := l0 :: ls') in *. assert (V' : cs = map (fun k => map (fun c0 => indicator (c0 =? k)) (map (fun i => qargmax (map (fun l => nth i l 0%Qc) ls)) (seq 0 n))) (seq 0 (List.length ls))) by congruence. clear V.
    set (row := map (fun l => nth i l 0%Qc) ls). assert (Lr : List.length row = c) by (unfold row; rewrite map_length; auto).
    assert (Er : forall k, k < c -> nth k row 0%Qc = (nth i (nth k mu []) 0 + sc * sd_noise dr v i k)%Qc).
    { intros k Hk. unfold row. rewrite (nth_indep _ 0%Qc (nth i [] 0%Qc)) by (rewrite map_length; lia). rewrite (map_nth (fun l => nth i l 0%Qc)). apply El; auto. }
    destruct (qargmax_spec row) as (K1 & K2 & K3). { intros Q. rewrite Q in Lr. cbn in Lr. unfold ls in Lls'. cbn in Lls'. lia. }
    exists (qargmax row). rewrite Lr in *. split; auto. split; [|split].
    + intros k' Hk'. rewrite <- !Er by auto. auto.
    + intros k' Hk'. rewrite <- !Er by lia. auto.
    + intros k' Hk'. rewrite V', nth_map_seq by lia. rewrite map_map, nth_map_seq by auto. fold row. rewrite (Nat.eqb_sym k'). destruct (_ =? k'); reflexivity.
Qed.
End Node.
