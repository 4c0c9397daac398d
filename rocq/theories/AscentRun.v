(** * AscentRun: the loops of the learners run the augmented Lagrangian method. *)
From Coq Require Import List Bool Arith ZArith Lia String QArith Qcanon Reals.
From Coquelicot Require Import Coquelicot.
From Verif Require Import Base QcX Digraph SmModel SmProofs NotearsModel NotearsProofs NotearsThms TransModel MapperModel DynoModel DynoProofs DynoThms AcycLink.
From Verif Require Import FitLink FitDyno FirstAnswer AscentSpec.
From Verif Require TorchModel TorchResult.
Import ListNotations.
Local Open Scope string_scope.
Local Open Scope list_scope.
Local Open Scope nat_scope.

(** ** The method has one outcome *)
Lemma not_reduced_dec last x : {not_reduced last x} + {~ not_reduced last x}.
Proof. destruct last as [y|]; cbn; [|right; auto]. destruct (Qclt_le_dec (Q2Qc (1 # 4) * y) x) as [H|H]; [left; auto|right]. apply Qcle_not_lt. auto. Qed.

Lemma method_det solve (pen : list Qc -> Qc -> Prop) tol limit : (forall w x y, pen w x -> pen w y -> x = y) ->
  forall n k r a last from o v, method solve pen tol limit n k r a last from o v -> forall o' v', method solve pen tol limit n k r a last from o' v' -> o = o' /\ v = v'.
Proof.
  intros F. induction 1; intros o' v' M; inversion M; subst;
    repeat match goal with P : pen ?w ?x, Q : pen ?w ?y |- _ => first [constr_eq x y; fail 1|pose proof (F _ _ _ P Q); subst] end;
    try (exfalso; contradiction);
    try (exfalso; match goal with A : (?x < ?y)%Qc, B : (?y <= ?x)%Qc |- _ => exact (Qclt_not_le _ _ A B) end);
    auto.
Qed.

(** ** The loop of notears.py and dynotears.py *)
Section Loop.
  Context (hf : list Qc -> fl) (opt : optimiser) (bs : list bound) (tol : Qc).
  Context (Tol : (0 <= tol)%Qc) (Fi : forall r q s k, exists x, hf (opt bs r (Fin q) s k) = Fin x).
  Local Notation solve := (fun r a s k => opt bs r (Fin a) s k).
  Local Notation pen := (fun w x => hf w = Fin x).

  Definition last_is (h : fl) (last : option Qc) : Prop := match last with None => h = PInf | Some y => h = Fin y end.

  Lemma flt_last h last x : last_is h last -> flt (fscale quarter h) (Fin x) = true <-> not_reduced last x.
  Proof. destruct last as [y|]; cbn; intros ->; cbn; [apply qlt_iff|split; [discriminate|contradiction]]. Qed.

  Lemma inner_method last a from hc : last_is hc last -> forall fuel s s1, inner fuel hf opt bs s = Ok s1 ->
    alpha s = Fin a -> h_cur s = hc -> w_est s = from -> (rho s < rho_max)%Qc -> flt (fscale quarter hc) (h_new s) || is_pinf (h_new s) = true ->
    exists k r x, let w := opt bs r (Fin a) from k in hf w = Fin x /\
      (forall n out v, method solve pen tol rho_max n k r a last from out v -> method solve pen tol rho_max n (calls s) (rho s) a last from out v) /\
      ((~ not_reduced last x /\ (r < rho_max)%Qc /\ s1 = mkSt r (Fin a) hc (Fin x) from w (S k)) \/
       (not_reduced last x /\ (rho_max <= r * ten)%Qc /\ s1 = mkSt (r * ten)%Qc (Fin a) hc (Fin x) from w (S k))).
  Proof.
    intros HL. induction fuel as [|f IH]; intros s s1 E Ea Eh Ef R C; cbn [inner] in E; rewrite Eh, C in E; apply qlt_iff in R as R'; rewrite R' in E; cbn [andb] in E; [discriminate|].
    rewrite Ea, Ef in E. destruct (Fi (rho s) a from (calls s)) as [x Hx]. rewrite Hx in E.
    destruct (not_reduced_dec last x) as [NR|NR].
    - apply (flt_last hc last x HL) in NR as NR'. rewrite NR' in E. destruct (Qclt_le_dec (rho s * ten) rho_max) as [L|L].
      + apply IH in E; auto; [|cbn [h_new]; rewrite NR'; auto]. cbn [calls rho] in E. destruct E as (k & r & y & Hy & M & O). exists k, r, y. split; [exact Hy|]. split; [|exact O].
        intros n out v K. apply M in K. eapply raise; [exact Hx|exact NR|exact L|exact K].
      + exists (calls s), (rho s), x. split; [exact Hx|]. split; [auto|]. right. split; [exact NR|]. split; [exact L|]. apply qlt_false in L.
        destruct f; cbn [inner rho] in E; rewrite L in E; cbn [andb] in E; injection E as <-; auto.
    - assert (NR' : flt (fscale quarter hc) (Fin x) = false) by (apply not_true_iff_false; intros X; apply NR; apply (flt_last hc last x HL); auto). rewrite NR' in E.
      exists (calls s), (rho s), x. split; [exact Hx|]. split; [auto|]. left. split; [exact NR|]. split; [exact R|].
      destruct f; cbn [inner rho h_cur h_new is_pinf] in E; rewrite NR' in E; cbn [orb] in E; rewrite andb_false_r in E; injection E as <-; auto.
  Qed.

  (** Once the weight is at its limit nothing changes any more. *)
  Lemma outer_stuck b : (tol < b)%Qc -> forall m fuel s s' bb, outer (S m) fuel hf opt bs tol s = Ok (s', bb) -> (rho_max <= rho s)%Qc -> h_cur s = Fin b -> h_new s = Fin b -> w_est s = w_new s ->
    w_est s' = w_new s /\ bb = true.
  Proof.
    intros Hb. induction m as [|m IH]; intros fuel s s' bb E R Hc Hn W; cbn [outer] in E; apply bind_ok in E as (s1 & E1 & E);
      (assert (s1 = s) by (apply qlt_false in R; destruct fuel; cbn [inner] in E1; rewrite R in E1; cbn [andb] in E1; injection E1; auto)); subst s1;
      cbn [h_cur] in E; rewrite Hn in E; cbn [fle flt] in E;
      rewrite (proj2 (qle_false b tol) Hb) in E.
    - injection E as <- <-. split; [reflexivity|]. apply qlt_iff. auto.
    - apply (IH _ _ _ _ E); auto.
  Qed.

  Lemma outer_method : forall m fuel s s' bb a last, outer (S m) fuel hf opt bs tol s = Ok (s', bb) -> alpha s = Fin a -> last_is (h_cur s) last -> h_new s = h_cur s ->
    match last with Some y => (tol < y)%Qc | None => True end -> (rho s < rho_max)%Qc ->
    exists v, method solve pen tol rho_max (S m) (calls s) (rho s) a last (w_est s) (w_est s') v /\ (bb = true <-> v <> Converged).
  Proof.
    induction m as [|m IH]; intros fuel s s' bb a last E Ea HL Hn Ly R; cbn [outer] in E; apply bind_ok in E as (s1 & E1 & E);
      (assert (C : flt (fscale quarter (h_cur s)) (h_new s) || is_pinf (h_new s) = true);
       [rewrite Hn; destruct last as [y|]; cbn in HL; rewrite HL; [|reflexivity];
        cbn [is_pinf]; rewrite orb_false_r; cbn [fscale flt]; apply qlt_iff;
        assert (Y : (0 < y)%Qc) by (eapply Qcle_lt_trans; eauto);
        replace y with (1 * y)%Qc at 2 by ring; apply Qcmult_lt_compat_r; [exact Y|reflexivity]|]).
    all: destruct (inner_method last a (w_est s) (h_cur s) HL fuel s s1 E1 Ea eq_refl eq_refl R C) as (k & r & x & Hx & M & [(NR & Rr & ->)|(NR & Rr & ->)]);
      cbn [h_cur h_new w_new w_est rho alpha calls fle flt] in E; destruct (qle x tol) eqn:L.
    all: try (injection E as <- <-; apply qle_iff in L; exists Converged; (split; [|split; [discriminate|congruence]]); apply M; first [eapply converged; eauto; fail|eapply limit_close; eauto]; fail).
    all: apply qle_false in L.
    - injection E as <- <-. exists OutOfIterations. split; [|split; [discriminate|intros _; apply qlt_iff; auto]]. apply M. eapply exhausted; eauto.
    - injection E as <- <-. exists WeightLimit. split; [|split; [discriminate|intros _; apply qlt_iff; auto]]. apply M. eapply limit_far; eauto.
    - cbn [fscale fadd] in E. destruct (IH _ _ _ _ (a + r * x)%Qc (Some x) E) as (v & Mv & Bv); auto; [reflexivity|]. exists v. split; [|exact Bv]. apply M. eapply next; eauto.
    - destruct (outer_stuck x L _ _ _ _ _ E) as [W ->]; auto. rewrite W. exists WeightLimit. split; [|split; [discriminate|auto]]. apply M. eapply limit_far; eauto.
  Qed.

  Lemma ascent_method fuel n len s b : 0 < n -> dual_ascent fuel n len hf opt bs tol = Ok (s, b) ->
    exists v, method solve pen tol rho_max n 0 1 0 None (repeat 0%Qc len) (w_est s) v /\ (b = true <-> v <> Converged).
  Proof.
    intros Hn E. destruct n as [|m]; [lia|]. unfold dual_ascent in E. destruct (outer_method m fuel (start len) s b 0%Qc None E) as (v & M & B); first [exact I|reflexivity|idtac].
    exists v. split; [exact M|exact B].
  Qed.
End Loop.

(** ** The loop of torch *)
Section Torch.
  Import TorchModel.
  Context (hf : list Qc -> fl) (opt : optimiser) (bs : list bound).
  Context (Fi : forall r q s k, exists x, hf (opt bs r (Fin q) s k) = Fin x).
  Local Notation solve := (fun r a s k => opt bs r (Fin a) s k).
  Local Notation pen := (fun w x => hf w = Fin x).

  Lemma while_method last a from hc : last_is hc last -> forall fuel r hn cur k z, torch_while fuel hf opt bs from (Fin a) hc r hn cur k = Ok z ->
    (r < torch_rho_max)%Qc -> flt (fscale quarter hc) hn || is_pinf hn = true ->
    exists k' r' x, let w := opt bs r' (Fin a) from k' in hf w = Fin x /\
      (forall n out v, method solve pen torch_h_tol torch_rho_max n k' r' a last from out v -> method solve pen torch_h_tol torch_rho_max n k r a last from out v) /\
      ((~ not_reduced last x /\ (r' < torch_rho_max)%Qc /\ z = (r', Fin x, w, S k')) \/
       (not_reduced last x /\ (torch_rho_max <= r' * ten)%Qc /\ z = ((r' * ten)%Qc, Fin x, w, S k'))).
  Proof.
    intros HL. induction fuel as [|f IH]; intros r hn cur k z E R C; cbn [torch_while] in E; rewrite C in E; apply qlt_iff in R as R'; rewrite R' in E; cbn [andb] in E; [discriminate|].
    destruct (Fi r a from k) as [x Hx]. rewrite Hx in E.
    destruct (not_reduced_dec last x) as [NR|NR].
    - apply (flt_last hc last x HL) in NR as NR'. rewrite NR' in E. destruct (Qclt_le_dec (r * ten) torch_rho_max) as [L|L].
      + apply IH in E; auto; [|rewrite NR'; auto]. destruct E as (k' & r' & y & Hy & M & O). exists k', r', y. split; [exact Hy|]. split; [|exact O].
        intros n out v K. apply M in K. eapply raise; [exact Hx|exact NR|exact L|exact K].
      + exists k, r, x. split; [exact Hx|]. split; [auto|]. right. split; [exact NR|]. split; [exact L|]. apply qlt_false in L.
        destruct f; cbn [torch_while] in E; rewrite L in E; cbn [andb] in E; injection E as <-; auto.
    - assert (NR' : flt (fscale quarter hc) (Fin x) = false) by (apply not_true_iff_false; intros X; apply NR; apply (flt_last hc last x HL); auto). rewrite NR' in E.
      exists k, r, x. split; [exact Hx|]. split; [auto|]. left. split; [exact NR|]. split; [exact R|].
      destruct f; cbn [torch_while is_pinf] in E; rewrite NR' in E; cbn [orb] in E; rewrite andb_false_r in E; injection E as <-; auto.
  Qed.

  Lemma fit_method : forall m fuel r a hc cur k o b k2 last, torch_fit (S m) fuel hf opt bs r (Fin a) hc cur k = Ok (o, b, k2) -> last_is hc last -> (r < torch_rho_max)%Qc ->
    exists v, method solve pen torch_h_tol torch_rho_max (S m) k r a last cur o v /\ (b = true <-> v = OutOfIterations).
  Proof.
    induction m as [|m IH]; intros fuel r a hc cur k o b k2 last E HL R; cbn [torch_fit] in E; apply bind_ok in E as ([[[r1 h1] c1] k1] & E1 & E); cbn beta iota in E.
    all: destruct (while_method last a cur hc HL fuel r PInf cur k _ E1 R) as (k' & r' & x & Hx & M & O); [cbn; apply orb_true_r|].
    all: destruct O as [(NR & Rr & Z)|(NR & Rr & Z)]; injection Z as -> -> -> ->; cbn [fle flt] in E; destruct (qle x torch_h_tol) eqn:L; cbn [orb] in E.
    all: try (injection E as <- <- <-; apply qle_iff in L; exists Converged; (split; [|split; discriminate]); apply M; first [eapply converged; eauto; fail|eapply limit_close; eauto]; fail).
    all: apply qle_false in L; first [apply qle_iff in Rr as Rr'; rewrite Rr' in E|apply qle_false in Rr as Rr'; rewrite Rr' in E].
    - injection E as <- <- <-. exists OutOfIterations. split; [|split; [auto|intros _; apply qlt_iff; auto]]. apply M. eapply exhausted; eauto.
    - injection E as <- <- <-. exists WeightLimit. split; [|split; discriminate]. apply M. eapply limit_far; eauto.
    - cbn [fscale fadd] in E. destruct (IH _ _ _ _ _ _ _ _ _ (Some x) E) as (v & Mv & Bv); first [reflexivity|assumption|idtac]. exists v. split; [|exact Bv]. apply M. eapply next; eauto.
    - injection E as <- <- <-. exists WeightLimit. split; [|split; discriminate]. apply M. eapply limit_far; eauto.
  Qed.
End Torch.
