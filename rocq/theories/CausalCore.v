(** * CausalCore: sums over worlds, and leaving out variables that nothing asked for depends on. *)
From Coq Require Import List Bool Arith ZArith Lia String QArith Qcanon Permutation Relations.
From Verif Require Import Base QcX Digraph BbnModel SumOver BbnTables InferSpec InferProofs InferMain.
Import ListNotations.
Local Open Scope Qc_scope.
Local Open Scope list_scope.

(** [P] only looks at the variables in [A]. *)
Definition looks (A : string -> Prop) (P : assign -> bool) : Prop := forall a b, (forall v, A v -> a v = b v) -> P a = P b.

Definition factor_at (a : assign) (vc : string * cpd) : Qc := prob (snd vc) (a (fst vc)) (map a (parents (snd vc))).
Definition jointf (N : net) (a : assign) : Qc := Qprod (factor_at a) N.
Definition mass (dom : string -> list label) (N : net) (P : assign -> bool) (a0 : assign) : Qc :=
  sumover dom (vars N) (fun a => if P a then jointf N a else 0) a0.

Lemma factor_agree a b vc : a (fst vc) = b (fst vc) -> (forall p, In p (parents (snd vc)) -> a p = b p) -> factor_at a vc = factor_at b vc.
Proof. intros H1 H2. unfold factor_at. rewrite H1. f_equal. apply map_ext_in. auto. Qed.

Lemma in_vars N v c : In (v, c) N -> In v (vars N).
Proof. intros H. apply in_map_iff. exists (v, c). auto. Qed.

Definition closed_in (N : net) : Prop := forall v c, In (v, c) N -> incl (parents c) (vars N).

Lemma jointf_dep N : closed_in N -> dep (vars N) (jointf N).
Proof. intros C a b H. apply Qprod_ext. intros [v c] I. apply factor_agree; cbn [fst snd]; [apply H, (in_vars N v c I)|]. intros p Hp. apply H, (C v c I p Hp). Qed.

Lemma mass_dep N P : closed_in N -> looks (fun v => In v (vars N)) P -> dep (vars N) (fun a => if P a then jointf N a else 0).
Proof. intros C L a b H. rewrite (L a b H). rewrite (jointf_dep N C a b H). auto. Qed.

Lemma mass_perm dom N N' P a0 : Permutation N N' -> closed_in N -> looks (fun v => In v (vars N)) P -> mass dom N P a0 = mass dom N' P a0.
Proof.
  intros Pm C L. unfold mass. rewrite (sumover_perm dom (vars N) (vars N')).
  - apply sumover_ext. intros b _ _. destruct (P b); auto. unfold jointf. apply Qprod_perm. auto.
  - eapply dep_ext. apply mass_dep; auto.
  - apply Permutation_map. auto.
Qed.

(** ** Worlds as assignments *)
Lemma world_sum dom (g : assign -> Qc) : ext g -> forall N a, NoDup (vars N) -> (forall v c, In (v, c) N -> dom v = states c) ->
  Qsum (fun w => g (ov w a)) (all_worlds N) = sumover dom (vars N) g a.
Proof.
  intros Eg N. induction N as [|[v c] N IH]; intros a ND D.
  - cbn. transitivity (g (ov [] a)); [ring|]. apply Eg. reflexivity.
  - cbn [all_worlds vars map fst sumover]. fold (vars N). rewrite (D v c) by (left; auto). rewrite Qsum_flat_map. apply Qsum_ext. intros s _.
    inversion ND as [|? ? Nv ND']; subst. rewrite <- IH; auto; [|intros; apply D; right; auto]. rewrite Qsum_map. apply Qsum_ext. intros w Hw. apply Eg.
    intros x. unfold ov. cbn [dget]. destruct (String.eqb_spec x v) as [->|Nx].
    + assert (Q : dget String.eqb w v = None).
      { destruct (dget String.eqb w v) as [y|] eqn:Ed; auto. exfalso. apply Nv. rewrite <- (all_worlds_keys_fst N w Hw). apply (dget_Some_key _ String.eqb_spec w v y). exact Ed. }
      rewrite Q. rewrite upd_same. auto.
    + destruct (dget String.eqb w x); auto. rewrite upd_other; auto.
Qed.

Lemma Pr_mass N (P : assign -> bool) a0 : shape_ok N -> looks (fun v => In v (vars N)) P ->
  Pr N (fun w => P (at_ w)) = mass (states_of N) N P a0.
Proof.
  intros SO L. assert (C : closed_in N) by (intros v c I; apply (ok_parents N SO v c I)).
  unfold Pr, mass. rewrite Qsum_filter. rewrite <- world_sum.
  - apply Qsum_ext. intros w Hw. assert (Ew : forall v, In v (vars N) -> at_ w v = ov w a0 v).
    { intros v Hv. rewrite at_dget. unfold ov. destruct (dget String.eqb w v) as [y|] eqn:Ed; auto. exfalso.
      rewrite <- (all_worlds_keys_fst N w Hw) in Hv. apply (dget_key_Some _ String.eqb_spec) in Hv as (y & K). congruence. }
    rewrite (L _ _ Ew). destruct (P (ov w a0)); auto. change (jointf N (at_ w) = jointf N (ov w a0)). apply (jointf_dep N C). auto.
  - eapply dep_ext. apply mass_dep; auto.
  - apply (ok_vars N SO).
  - intros v c I. apply states_of_In; auto. apply (ok_vars N SO).
Qed.

(** ** Leaving out variables *)
Definition keep (A : string -> bool) (N : net) : net := filter (fun vc => A (fst vc)) N.

Lemma keep_vars A N : vars (keep A N) = filter A (vars N).
Proof. unfold vars, keep. induction N as [|[v c] N IH]; auto. cbn. destruct (A v); cbn; rewrite IH; auto. Qed.

Section Keep.
  Context (dom : string -> list label) (r : string -> nat) (A : string -> bool).

  (** The conditions that survive when variables are left out *)
  Record part (N : net) : Prop := {
    pt_nodup : NoDup (vars N);
    pt_closed : closed_in N;
    pt_rank : forall v c p, In (v, c) N -> In p (parents c) -> (r p < r v)%nat;
    pt_anc : forall v c p, In (v, c) N -> A v = true -> In p (parents c) -> A p = true;
    pt_sum : forall v c ps, In (v, c) N -> Forall2 (fun p x => In x (dom p)) (parents c) ps -> Qsum (fun s => prob c s ps) (dom v) = 1
  }.

  Lemma highest (N : net) : (exists vc, In vc N /\ A (fst vc) = false) ->
    exists vc, In vc N /\ A (fst vc) = false /\ forall uc, In uc N -> A (fst uc) = false -> (r (fst uc) <= r (fst vc))%nat.
  Proof.
    induction N as [|[v c] N IH]; intros (vc & I & Av); [destruct I|].
    destruct (existsb (fun uc => negb (A (fst uc))) N) eqn:Ex.
    - apply existsb_exists in Ex. destruct Ex as (uc & Iu & Au). apply negb_true_iff in Au.
      destruct IH as (m & Im & Am & Mx); [eauto|]. destruct (A v) eqn:Ev.
      + exists m. split; [right; auto|]. split; auto. intros x [<-|Ix] Hx; [cbn in Hx; congruence|auto].
      + destruct (le_lt_dec (r v) (r (fst m))) as [L|L].
        * exists m. split; [right; auto|]. split; auto. intros x [<-|Ix] Hx; auto.
        * exists (v, c). split; [left; auto|]. split; auto. intros x [<-|Ix] Hx; auto. specialize (Mx x Ix Hx). cbn. lia.
    - assert (Nx : forall uc, In uc N -> A (fst uc) = true).
      { intros uc Iu. destruct (A (fst uc)) eqn:Q; auto. assert (existsb (fun uc => negb (A (fst uc))) N = true); [|congruence]. apply existsb_exists. exists uc. rewrite Q. auto. }
      destruct I as [<-|I]; [|rewrite (Nx vc I) in Av; discriminate]. exists (v, c). split; [left; auto|]. split; auto.
      intros x [<-|Ix] Hx; auto. rewrite (Nx x Ix) in Hx. discriminate.
  Qed.

  Lemma mass_keep n : forall N P a0, List.length N = n -> part N -> looks (fun v => In v (vars N) /\ A v = true) P -> mass dom N P a0 = mass dom (keep A N) P a0.
  Proof.
    induction n as [n IH] using lt_wf_ind. intros N P a0 Ln Pt L.
    destruct (existsb (fun uc => negb (A (fst uc))) N) eqn:Ex.
    - apply existsb_exists in Ex. destruct Ex as (uc & Iu & Au). apply negb_true_iff in Au.
      destruct (highest N) as ([v c] & I & Av & Mx); [eauto|]. cbn [fst] in Av, Mx.
      apply in_split in I. destruct I as (N1 & N2 & EN). set (N' := N1 ++ N2).
      assert (Pm : Permutation N (N' ++ [(v, c)])).
      { rewrite EN. unfold N'. rewrite <- app_assoc. apply Permutation_app_head. apply (Permutation_cons_append N2 (v, c)). }
      assert (Iv : In (v, c) N) by (rewrite EN; apply in_app_iff; right; left; auto).
      assert (Sub : forall x, In x N' -> In x N) by (intros x Hx; rewrite EN; unfold N' in Hx; apply in_app_iff in Hx; apply in_app_iff; cbn; tauto).
      assert (Vs : Permutation (vars N) (v :: vars N')).
      { apply (Permutation_map fst) in Pm. unfold vars. rewrite Pm, map_app. cbn. symmetry. apply Permutation_cons_append. }
      assert (Nv : ~ In v (vars N')).
      { pose proof (pt_nodup N Pt) as Nd. rewrite Vs in Nd. inversion Nd; auto. }
      assert (Nc : forall u d, In (u, d) N' -> ~ In v (parents d)).
      { intros u d Iu' Hp. pose proof (pt_rank N Pt u d v (Sub _ Iu') Hp) as Rk. destruct (A u) eqn:Q.
        - rewrite (pt_anc N Pt u d v (Sub _ Iu') Q Hp) in Av. discriminate.
        - specialize (Mx (u, d) (Sub _ Iu') Q). cbn in Mx. lia. }
      assert (Cl : closed_in N').
      { intros u d Iu' p Hp. pose proof (pt_closed N Pt u d (Sub _ Iu') p Hp) as Hi. apply (Permutation_in _ Vs) in Hi. destruct Hi as [<-|]; auto. exfalso. apply (Nc u d Iu' Hp). }
      assert (Pt' : part N').
      { constructor; auto.
        - pose proof (pt_nodup N Pt) as Nd. rewrite Vs in Nd. inversion Nd; auto.
        - intros u d p Hu. apply (pt_rank N Pt). auto.
        - intros u d p Hu. apply (pt_anc N Pt). auto.
        - intros u d ps Hu. apply (pt_sum N Pt). auto. }
      assert (L' : looks (fun u => In u (vars N') /\ A u = true) P).
      { intros a b H. apply L. intros u (Hu & Au'). apply H. split; auto. apply (Permutation_in _ Vs) in Hu. destruct Hu as [<-|]; auto. congruence. }
      assert (Kp : keep A N = keep A N').
      { rewrite EN. unfold keep, N'. rewrite !filter_app. cbn [filter fst]. rewrite Av. auto. }
      rewrite Kp. rewrite <- (IH (List.length N')); auto; [|rewrite <- Ln, (Permutation_length Pm), app_length; cbn; lia].
      rewrite (mass_perm dom N (N' ++ [(v, c)])); auto; [|apply (pt_closed N Pt)|intros a b H; apply L; intuition].
      unfold mass at 1. unfold vars at 1. rewrite map_app. cbn [map fst]. fold (vars N'). rewrite sumover_app.
      unfold mass. apply sumover_ext. intros b _ Hb. cbn [sumover].
      transitivity (Qsum (fun x => (if P b then jointf N' b else 0) * prob c x (map b (parents c))) (dom v)).
      + apply Qsum_ext. intros x _. rewrite (L' (upd b v x) b) by (intros u (Hu & _); apply upd_other; intros ->; auto).
        destruct (P b); [|ring]. unfold jointf. rewrite Qprod_app.
        rewrite (Qprod_ext (factor_at (upd b v x)) (factor_at b) N').
        * assert (Q1 : Qprod (factor_at (upd b v x)) [(v, c)] = prob c x (map b (parents c))); [|rewrite Q1; reflexivity].
          transitivity (factor_at (upd b v x) (v, c)); [unfold Qprod; cbn; ring|]. unfold factor_at. cbn [fst snd]. rewrite upd_same. f_equal. apply map_ext_in.
          intros p Hp. apply upd_other. intros ->. pose proof (pt_rank N Pt v c v Iv Hp). lia.
        * intros [u d] Hu. apply factor_agree; cbn [fst snd]; [apply upd_other; intros ->; apply Nv, (in_vars N' v d Hu)|].
          intros p Hp. apply upd_other. intros ->. apply (Nc u d Hu Hp).
      + rewrite Qsum_mul_l. rewrite (pt_sum N Pt v c (map b (parents c)) Iv); [ring|].
        assert (Ip : forall p, In p (parents c) -> In p (vars N')).
        { intros p Hp. pose proof (pt_closed N Pt v c Iv p Hp) as Hi. apply (Permutation_in _ Vs) in Hi. destruct Hi as [<-|]; auto. pose proof (pt_rank N Pt v c v Iv Hp). lia. }
        clear - Ip Hb. induction (parents c) as [|p ps IHp]; cbn; constructor; [apply Hb, Ip; left; auto|]. apply IHp. intros; apply Ip; right; auto.
    - assert (Nx : forall uc, In uc N -> A (fst uc) = true).
      { intros uc Iu. destruct (A (fst uc)) eqn:Q; auto. assert (existsb (fun uc => negb (A (fst uc))) N = true); [|congruence]. apply existsb_exists. exists uc. rewrite Q. auto. }
      f_equal. clear - Nx. unfold keep. induction N as [|x N IH]; auto. cbn. rewrite (Nx x (or_introl eq_refl)). f_equal. apply IH. intros; apply Nx; right; auto.
  Qed.
End Keep.

(** A set of variables that contains the parents of its members *)
Definition ancestral (N : net) (A : string -> bool) : Prop := forall v c p, In (v, c) N -> A v = true -> In p (parents c) -> A p = true.

Lemma shape_part N A : shape_ok N -> columns_sum_1 N -> ancestral N A -> exists r, part (states_of N) r A N.
Proof.
  intros SO CS An. destruct (proj1 (acyclic_rank String.eqb String.eqb_spec _) (ok_dag N SO)) as (r & Rk). exists r. constructor; auto.
  - apply (ok_vars N SO).
  - intros v c I. apply (ok_parents N SO v c I).
  - intros v c p I Hp. apply Rk. unfold parent_arrows. apply in_flat_map. exists (v, c). split; auto. cbn. apply in_map_iff. eauto.
  - intros v c ps I F. rewrite (states_of_In N v c (ok_vars N SO) I). apply (CS v c ps I F).
Qed.

(** The probability of an event about an ancestral set only needs that set. *)
Lemma Pr_keep N A P a0 : shape_ok N -> columns_sum_1 N -> ancestral N A -> looks (fun v => In v (vars N) /\ A v = true) P ->
  Pr N (fun w => P (at_ w)) = mass (states_of N) (keep A N) P a0.
Proof.
  intros SO CS An L. destruct (shape_part N A SO CS An) as (r & Pt). rewrite (Pr_mass N P a0 SO); [|intros a b H; apply L; intuition].
  apply (mass_keep (states_of N) r A (List.length N)); auto.
Qed.
