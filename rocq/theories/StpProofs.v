(* The loop of SymmetricTensorProduct computes a sum of contractions. *)
From Coq Require Import Reals Lra Lia List Arith Bool Sorted Permutation.
From Verif Require Import PyBase PermModel IrrepsModel IrrepsProofs IrrepsProofs2 IrrepsStr ArrayModel ArrayProofs ArrayOps LeadModel LeadProofs SumR EntryProofs TPModel TPProofs GradProofs ArrayProps3 RtpModel RtpSpace StpModel.
Import ListNotations.
Open Scope R_scope.

Definition monomial (row : list R) (z : idx) : R := fold_right Rmult 1 (map (fun j => nth j row 0) z).

Lemma find_In ir d : find ir d <> None <-> In ir (map fst d).
Proof.
  induction d as [|[k v] d IH]; [cbn; tauto|]. cbn [find map fst In]. destruct (irrep_eqb ir k) eqn:E.
  - apply irrep_eqb_eq in E. subst. split; [auto|discriminate].
  - rewrite IH. split; [auto|]. intros [->|H]; [|exact H]. rewrite (proj2 (irrep_eqb_eq ir ir) eq_refl) in E. discriminate.
Qed.
Lemma find_None ir d : find ir d = None <-> ~ In ir (map fst d).
Proof. rewrite <- find_In. destruct (find ir d); split; intros H; [discriminate|exfalso; apply H; discriminate|intros K; now apply K|reflexivity]. Qed.
Lemma find_app ir d v k : find ir (d ++ [(k, v)]) = match find ir d with Some u => Some u | None => if irrep_eqb ir k then Some v else None end.
Proof. induction d as [|[k' u] d IH]; [reflexivity|]. cbn [app find]. destruct (irrep_eqb ir k'); auto. Qed.
Lemma update_keys ir v d : map fst (update ir v d) = map fst d.
Proof. induction d as [|[k u] d IH]; [reflexivity|]. cbn [update]. destruct (irrep_eqb ir k); cbn [map fst]; [reflexivity|now rewrite IH]. Qed.
Lemma find_update ir k v d : In k (map fst d) -> find ir (update k v d) = if irrep_eqb ir k then Some v else find ir d.
Proof.
  induction d as [|[k' u] d IH]; intros H; [destruct H|]. cbn [update]. destruct (irrep_eqb k k') eqn:E.
  - apply irrep_eqb_eq in E. subst k'. cbn [find]. now destruct (irrep_eqb ir k).
  - cbn [find]. cbn [map fst In] in H. assert (K : In k (map fst d)) by (destruct H as [->|H]; [rewrite (proj2 (irrep_eqb_eq k k) eq_refl) in E; discriminate|exact H]). rewrite (IH K). destruct (irrep_eqb ir k') eqn:E1; [|reflexivity]. destruct (irrep_eqb ir k) eqn:E2; [|reflexivity]. apply irrep_eqb_eq in E1, E2. subst. rewrite (proj2 (irrep_eqb_eq _ _) eq_refl) in E. discriminate.
Qed.
Lemma find_contract d rows ir out : find ir (contract d rows out) = option_map (fun v => match v with Special t => Plain t | Plain t => Plain (fun i z c => rsum d (fun j => t i (z ++ [j]) c * nth j (rows i) 0)) end) (find ir out).
Proof. induction out as [|[k v] out IH]; [reflexivity|]. cbn [contract map find]. destruct (irrep_eqb ir k); [reflexivity|exact IH]. Qed.
Lemma contract_keys d rows out : map fst (contract d rows out) = map fst out.
Proof. unfold contract. rewrite map_map. apply map_ext. now intros [k v]. Qed.

Section Loop.
Variables (P : stp_params) (d : nat) (rows : idx -> list R).
Definition tirs (terms : list (mulirrep * option chunk)) : list irrep := map (fun t => snd (fst t)) terms.
(* what an order adds to the key ir *)
Definition added (order : nat) (terms : list (mulirrep * option chunk)) (ir : irrep) (i z : idx) (c : nat) : R :=
  lsum terms (fun '(m, ch) => if irrep_eqb ir (snd m) then rsum (fst m) (fun k => nth c (nth k (chunk_rows m ch z) []) 0 / INR (fst m) * P (stp_name order (snd m)) k (last i 0%nat)) else 0).
Definition old (ir : irrep) (out : dict) (i z : idx) (c : nat) : R := match find ir out with Some (Plain t) => t i z c | _ => 0 end.
Definition settled (v : slot) (i z : idx) (c : nat) : R := match v with Special t => t i z c | Plain t => rsum d (fun j => t i (z ++ [j]) c * nth j (rows i) 0) end.
Lemma added_other order terms ir i z c : ~ In ir (tirs terms) -> added order terms ir i z c = 0.
Proof. intros H. unfold added. apply lsum_zero. intros [m ch] Hm. destruct (irrep_eqb ir (snd m)) eqn:E; [|reflexivity]. apply irrep_eqb_eq in E. exfalso. apply H. unfold tirs. apply in_map_iff. exists (m, ch). auto. Qed.
Lemma add_terms_spec order : forall terms out, NoDup (tirs terms) -> NoDup (map fst out) -> (forall ir v, In ir (tirs terms) -> find ir out = Some v -> exists t, v = Plain t) ->
  exists out', add_terms P order d rows terms out = Ok out' /\ NoDup (map fst out') /\ (forall ir, In ir (map fst out') <-> In ir (map fst out) \/ In ir (tirs terms)) /\
    (forall ir, ~ In ir (tirs terms) -> find ir out' = find ir out) /\
    (forall ir, In ir (tirs terms) -> exists v, find ir out' = Some v /\ forall i z c, settled v i z c = rsum d (fun j => (old ir out i (z ++ [j]) c + added order terms ir i (z ++ [j]) c) * nth j (rows i) 0)).
Proof.
  induction terms as [|[m ch] terms IH]; intros out ND NO HP.
  - exists out. split; [reflexivity|]. split; [exact NO|]. split; [intros ir; cbn; tauto|]. split; [reflexivity|]. intros ir [].
  - cbn [tirs map fst] in ND. inversion ND as [|? ? Nm ND']; subst. fold (tirs terms) in *.
    assert (Step : exists out1, (match find (snd m) out with
                  | None => Ok (out ++ [(snd m, Special (fun i z c => rsum d (fun j => rsum (fst m) (fun k => nth c (nth k (chunk_rows m ch (z ++ [j])) []) 0 / INR (fst m) * P (stp_name order (snd m)) k (last i 0%nat) * nth j (rows i) 0))))])
                  | Some (Special _) => Err TypeError
                  | Some (Plain t) => Ok (update (snd m) (Plain (fun i z c => t i z c + rsum (fst m) (fun k => nth c (nth k (chunk_rows m ch z) []) 0 / INR (fst m) * P (stp_name order (snd m)) k (last i 0%nat)))) out)
                  end) = Ok out1 /\ NoDup (map fst out1) /\ (forall ir, In ir (map fst out1) <-> In ir (map fst out) \/ ir = snd m) /\ (forall ir, ir <> snd m -> find ir out1 = find ir out) /\
              exists v, find (snd m) out1 = Some v /\ forall i z c, settled v i z c = rsum d (fun j => (old (snd m) out i (z ++ [j]) c + rsum (fst m) (fun k => nth c (nth k (chunk_rows m ch (z ++ [j])) []) 0 / INR (fst m) * P (stp_name order (snd m)) k (last i 0%nat))) * nth j (rows i) 0)).
    { unfold old. destruct (find (snd m) out) as [v|] eqn:Ef.
      - destruct (HP (snd m) v ltac:(left; reflexivity) Ef) as [t ->]. eexists. split; [reflexivity|]. assert (K : In (snd m) (map fst out)) by (apply find_In; congruence). rewrite update_keys. split; [exact NO|]. split; [intros ir; split; [auto|intros [H| ->]; auto]|]. split.
        + intros ir Hir. rewrite find_update by exact K. destruct (irrep_eqb ir (snd m)) eqn:E; [apply irrep_eqb_eq in E; contradiction|reflexivity].
        + eexists. rewrite find_update by exact K. rewrite (proj2 (irrep_eqb_eq _ _) eq_refl). split; [reflexivity|]. intros i z c. reflexivity.
      - eexists. split; [reflexivity|]. apply find_None in Ef as Nf. rewrite map_app. cbn [map fst]. split; [apply NoDup_app_i; [exact NO|constructor; [intros []|constructor]|intros u Hu [<-|[]]; contradiction]|]. split; [intros ir; rewrite in_app_iff; cbn [In]; firstorder|]. split.
        + intros ir Hir. rewrite find_app. destruct (find ir out); [reflexivity|]. destruct (irrep_eqb ir (snd m)) eqn:E; [apply irrep_eqb_eq in E; contradiction|reflexivity].
        + eexists. rewrite find_app, Ef, (proj2 (irrep_eqb_eq _ _) eq_refl). split; [reflexivity|]. intros i z c. cbn [settled]. apply rsum_ext. intros j _. rewrite Rplus_0_l, Rmult_comm, <- rsum_scal. apply rsum_ext. intros; ring. }
    destruct Step as (out1 & E1 & N1 & K1 & F1 & v1 & Fv & Hv). cbn [add_terms]. cbv zeta. rewrite E1. cbn [bind].
    destruct (IH out1 ND' N1) as (out' & E' & N' & K' & F' & G').
    { intros ir v Hir Hf. assert (ir <> snd m) by congruence. rewrite F1 in Hf by assumption. apply (HP ir v); [right; exact Hir|exact Hf]. }
    exists out'. split; [exact E'|]. split; [exact N'|]. split; [intros ir; rewrite K', K1; cbn [tirs map fst In]; fold (tirs terms); intuition congruence|]. split.
    + intros ir Hir. cbn [tirs map fst In] in Hir. rewrite F' by tauto. apply F1. intros ->. apply Hir. now left.
    + intros ir Hir. cbn [tirs map fst In] in Hir. fold (tirs terms) in Hir. destruct (irrep_eqb ir (snd m)) eqn:E.
      * apply irrep_eqb_eq in E. subst ir. exists v1. rewrite F' by exact Nm. split; [exact Fv|]. intros i z c. rewrite Hv. apply rsum_ext. intros j _. f_equal. f_equal. unfold added. rewrite lsum_cons. rewrite (proj2 (irrep_eqb_eq _ _) eq_refl). fold (added order terms (snd m) i (z ++ [j]) c). rewrite (added_other order terms) by exact Nm. ring.
      * assert (Ht : In ir (tirs terms)) by (destruct Hir as [<-|H]; [rewrite (proj2 (irrep_eqb_eq _ _) eq_refl) in E; discriminate|exact H]). destruct (G' ir Ht) as (v & Hf & Hs). exists v. split; [exact Hf|]. intros i z c. rewrite Hs. apply rsum_ext. intros j _. f_equal. f_equal.
        -- unfold old. rewrite F1; [reflexivity|]. intros ->. contradiction.
        -- unfold added at 2. rewrite lsum_cons, E. fold (added order terms ir i (z ++ [j]) c). ring.
Qed.
End Loop.
