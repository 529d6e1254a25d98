(* The loop of SymmetricTensorProduct, continued: the value of the call. *)
From Coq Require Import Reals Lra Lia List Arith Bool Sorted Permutation.
From Verif Require Import PyBase PermModel IrrepsModel IrrepsProofs IrrepsProofs2 IrrepsStr ArrayModel ArrayProofs ArrayOps LeadModel LeadProofs SumR EntryProofs TPModel TPProofs StackProofs S2Proofs3 ArrayProps3 RtpModel RtpSpace RtpConstrain2 StpModel StpProofs.
Import ListNotations.
Open Scope R_scope.

Section Loop.
Variables (basis : irreps -> nat -> option (list irrep) -> res iarray) (orders : list nat) (keep : option (list irrep)) (P : stp_params).
Variables (x : irreps) (rows : idx -> list R) (M : nat) (U : nat -> iarray).
Definition T (o : nat) : list (mulirrep * option chunk) := combine (irr (U o)) (chunks (U o)).
Definition term (n o : nat) (ir : irrep) (i z : idx) (c : nat) : R :=
  if inb orders o then lsum (all_idx (repeat (dim x) (o - n))) (fun y => added P o (T o) ir i (z ++ y) c * monomial (rows i) y) else 0.
Definition inv (n : nat) (out : dict) : Prop :=
  NoDup (map fst out) /\ (forall ir, In ir (map fst out) <-> exists o, (n < o <= M)%nat /\ inb orders o = true /\ In ir (tirs (T o))) /\
  (forall ir v, find ir out = Some v -> exists t, v = Plain t) /\
  (forall ir i z c, old ir out i z c = lsum (seq (S n) (M - n)) (fun o => term n o ir i z c)).
Lemma step_term n o ir i z c : (S n < o)%nat -> rsum (dim x) (fun j => term (S n) o ir i (z ++ [j]) c * nth j (rows i) 0) = term n o ir i z c.
Proof.
  intros H. unfold term. destruct (inb orders o); [|rewrite rsum_zero by (intros; ring); reflexivity]. replace (o - n)%nat with (S (o - S n)) by lia. cbn [repeat]. rewrite lsum_all_idx, lsum_seq. apply rsum_ext. intros j _. rewrite <- lsum_scal_r. apply lsum_ext. intros y _. rewrite <- app_assoc. cbn [app]. unfold monomial. cbn [map fold_right]. ring.
Qed.
Lemma first_term n ir i z c : rsum (dim x) (fun j => (if inb orders (S n) then added P (S n) (T (S n)) ir i (z ++ [j]) c else 0) * nth j (rows i) 0) = term n (S n) ir i z c.
Proof.
  unfold term. destruct (inb orders (S n)); [|apply rsum_zero; intros; ring]. replace (S n - n)%nat with 1%nat by lia. cbn [repeat]. rewrite lsum_all_idx, lsum_seq. apply rsum_ext. intros j _. cbn [all_idx]. rewrite lsum_cons. unfold monomial. cbn [map fold_right lsum]. ring.
Qed.
Lemma loop_step n out : (S n <= M)%nat -> NoDup (tirs (T (S n))) -> inv (S n) out ->
  exists out1, (if inb orders (S n) then add_terms P (S n) (dim x) rows (combine (irr (U (S n))) (chunks (U (S n)))) out else Ok out) = Ok out1 /\ inv n (contract (dim x) rows out1).
Proof.
  intros Hn NT Hi. destruct Hi as (ND & K & Pl & V).
  assert (Step : exists out1, (if inb orders (S n) then add_terms P (S n) (dim x) rows (combine (irr (U (S n))) (chunks (U (S n)))) out else Ok out) = Ok out1 /\ NoDup (map fst out1) /\
      (forall ir, In ir (map fst out1) <-> In ir (map fst out) \/ (inb orders (S n) = true /\ In ir (tirs (T (S n))))) /\
      (forall ir i z c, match find ir out1 with Some v => settled (dim x) rows v i z c | None => 0 end = rsum (dim x) (fun j => (old ir out i (z ++ [j]) c + (if inb orders (S n) then added P (S n) (T (S n)) ir i (z ++ [j]) c else 0)) * nth j (rows i) 0))).
  { assert (Old : forall ir i z c, match find ir out with Some v => settled (dim x) rows v i z c | None => 0 end = rsum (dim x) (fun j => (old ir out i (z ++ [j]) c + 0) * nth j (rows i) 0)).
    { intros ir i z c. unfold old. destruct (find ir out) as [v|] eqn:E; [|rewrite rsum_zero by (intros; ring); reflexivity]. destruct (Pl ir v E) as [t ->]. cbn [settled]. apply rsum_ext. intros; ring. }
    destruct (inb orders (S n)) eqn:Eo.
    - destruct (add_terms_spec P (dim x) rows (S n) (T (S n)) out NT ND) as (out1 & E1 & N1 & K1 & F1 & G1); [intros ir v _; apply Pl|]. exists out1. split; [exact E1|]. split; [exact N1|]. split; [intros ir; rewrite K1; tauto|].
      intros ir i z c. destruct (in_dec irrep_eq_dec ir (tirs (T (S n)))) as [H|H].
      + destruct (G1 ir H) as (v & Ef & Hv). rewrite Ef. apply Hv.
      + rewrite F1 by exact H. rewrite Old. apply rsum_ext. intros j _. rewrite (added_other P (S n)) by exact H. reflexivity.
    - exists out. split; [reflexivity|]. split; [exact ND|]. split; [intros ir; split; [auto|intros [H|[Q _]]; [exact H|discriminate]]|]. exact Old. }
  destruct Step as (out1 & E1 & N1 & K1 & V1). exists out1. split; [exact E1|]. split; [rewrite contract_keys; exact N1|]. split; [|split].
  - intros ir. rewrite contract_keys, K1, K. split.
    + intros [(o & Ho & Q)|[Q1 Q2]]; [exists o; split; [lia|exact Q]|exists (S n); split; [lia|auto]].
    + intros (o & Ho & Q1 & Q2). destruct (Nat.eq_dec o (S n)) as [->|N]; [right; auto|left; exists o; split; [lia|auto]].
  - intros ir v Hv. rewrite find_contract in Hv. destruct (find ir out1) as [[t|t]|]; cbn [option_map] in Hv; [injection Hv as <-; eauto|injection Hv as <-; eauto|discriminate].
  - intros ir i z c. transitivity (match find ir out1 with Some v => settled (dim x) rows v i z c | None => 0 end).
    { unfold old. rewrite find_contract. destruct (find ir out1) as [[t|t]|]; reflexivity. }
    rewrite V1. replace (M - n)%nat with (S (M - S n)) by lia. cbn [seq]. rewrite lsum_cons, <- first_term.
    rewrite (rsum_ext _ _ (fun j => (if inb orders (S n) then added P (S n) (T (S n)) ir i (z ++ [j]) c else 0) * nth j (rows i) 0 + old ir out i (z ++ [j]) c * nth j (rows i) 0)) by (intros; ring). rewrite rsum_plus. f_equal.
    rewrite (rsum_ext _ _ (fun j => lsum (seq (S (S n)) (M - S n)) (fun o => term (S n) o ir i (z ++ [j]) c * nth j (rows i) 0))) by (intros j _; rewrite V, lsum_scal_r; reflexivity). rewrite <- lsum_rsum. apply lsum_ext. intros o Ho. apply in_seq in Ho. apply step_term. lia.
Qed.
Lemma loop_ok : forall n out, (n <= M)%nat -> (forall o, (1 <= o <= n)%nat -> basis x o keep = Ok (U o) /\ NoDup (tirs (T o))) -> inv n out ->
  exists out', stp_loop basis orders keep P x rows n out = Ok out' /\ inv 0 out'.
Proof.
  induction n as [|n IH]; intros out Hn HB Hi; [exists out; split; [reflexivity|exact Hi]|]. cbn [stp_loop]. destruct (HB (S n) ltac:(lia)) as [EB NT]. rewrite EB. cbn [bind].
  destruct (loop_step n out Hn NT Hi) as (out1 & -> & I1). cbn [bind]. apply IH; [lia|intros o Ho; apply HB; lia|exact I1].
Qed.
(* the first basis that cannot be computed ends the loop *)
Lemma loop_err e o : basis x o keep = Err e -> (forall o', (1 <= o' <= M)%nat -> (basis x o' keep = Ok (U o') /\ NoDup (tirs (T o'))) \/ basis x o' keep = Err e) -> forall n out, (n <= M)%nat -> (1 <= o <= n)%nat -> inv n out ->
  stp_loop basis orders keep P x rows n out = Err e.
Proof.
  intros Eo HB. induction n as [|n IH]; intros out Hn Ho Hi; [lia|]. cbn [stp_loop]. destruct (HB (S n) ltac:(lia)) as [[EB NT]|EB]; rewrite EB; cbn [bind]; [|reflexivity].
  assert (o <> S n) by (intros ->; congruence). destruct (loop_step n out Hn NT Hi) as (out1 & -> & I1). cbn [bind]. apply IH; [lia|lia|exact I1].
Qed.
End Loop.

(* ---------- from the chunks of the basis to its entries ---------- *)
(* all the tensors of b contracted with row in every index *)
Definition contracted (b : iarray) (row : list R) : list R := tab (dim (irr b)) (fun c => lsum (all_idx (lead b)) (fun z => nth c (arr b z) 0 * monomial row z)).
Lemma contracted_length b row : length (contracted b row) = dim (irr b).
Proof. apply tab_length. Qed.
Lemma blocks_nth (f : nat -> R) : forall x row k u, length row = dim x -> (k < length x)%nat -> (u < mi_dim (nth k x (0%nat, Irrep 0 Even)))%nat ->
  nth u (nth k (blocks x row) []) 0 = nth (dim (firstn k x) + u) row 0.
Proof.
  induction x as [|m x IH]; intros row k u L Hk Hu; [cbn in Hk; lia|]. rewrite dim_cons in L. destruct k as [|k].
  - cbn [nth blocks firstn] in *. change (dim []) with 0%nat. cbn [Nat.add]. rewrite <- (firstn_skipn (mi_dim m) row) at 2. rewrite app_nth1; [reflexivity|]. rewrite firstn_length. lia.
  - cbn [nth blocks firstn length] in *. rewrite dim_cons. rewrite IH by (try rewrite skipn_length; try exact Hu; lia). rewrite <- (firstn_skipn (mi_dim m) row) at 2. rewrite app_nth2 by (rewrite firstn_length; lia). rewrite firstn_length. f_equal. lia.
Qed.
Lemma inside_bound x k u c : inside x k u c -> (k < length x)%nat /\ (u * ir_dim (snd (nth k x (0%nat, Irrep 0 Even))) + c < mi_dim (nth k x (0%nat, Irrep 0 Even)))%nat.
Proof. intros (m & ir & E & Hu & Hc). split; [apply nth_error_Some; congruence|]. rewrite (nth_error_nth _ _ _ E). unfold mi_dim. cbn [fst snd]. nia. Qed.
Lemma offset_bound : forall x k u, (k < length x)%nat -> (u < mi_dim (nth k x (0%nat, Irrep 0 Even)))%nat -> (dim (firstn k x) + u < dim x)%nat.
Proof. induction x as [|m x IH]; intros k u Hk Hu; [cbn in Hk; lia|]. rewrite dim_cons. destruct k as [|k]; [cbn [nth firstn] in *; change (dim []) with 0%nat; lia|]. cbn [nth firstn length] in *. rewrite dim_cons. specialize (IH k u ltac:(lia) Hu). lia. Qed.
Lemma entry_nth x row k u c : length row = dim x -> inside x k u c -> entry x row k u c = nth (dim (firstn k x) + (u * ir_dim (snd (nth k x (0%nat, Irrep 0 Even))) + c)) row 0.
Proof. intros L H. destruct (inside_bound _ _ _ _ H). unfold entry. apply blocks_nth; auto. exact (fun _ => 0). Qed.
Lemma entry_contracted b row k u c : coherent b -> inside (irr b) k u c -> entry (irr b) (contracted b row) k u c = lsum (all_idx (lead b)) (fun z => entry (irr b) (arr b z) k u c * monomial row z).
Proof.
  intros Cb H. rewrite entry_nth by (try apply contracted_length; exact H). destruct (inside_bound _ _ _ _ H). unfold contracted. rewrite nth_tab by (apply offset_bound; auto). apply lsum_ext. intros z Hz. f_equal. symmetry. apply entry_nth; [apply Cb, all_idx_valid, Hz|exact H].
Qed.
(* the part of the output irrep ir that comes from one basis b, with the parameters w[k, ch] of order o *)
Definition share (o : nat) (P : stp_params) (b : iarray) (row : list R) (ch : nat) (ir : irrep) (c : nat) : R :=
  rsum (length (irr b)) (fun a => let mul := fst (nth a (irr b) (0%nat, Irrep 0 Even)) in
    if irrep_eqb ir (snd (nth a (irr b) (0%nat, Irrep 0 Even))) then rsum mul (fun k => P (stp_name o ir) k ch * entry (irr b) (contracted b row) a k c) / INR mul else 0).
Lemma lsum_combine {A B} (l : list A) (l' : list B) da db f : length l = length l' -> lsum (combine l l') f = rsum (length l) (fun k => f (nth k l da, nth k l' db)).
Proof. intros E. rewrite (lsum_nth _ (da, db)). rewrite combine_length, <- E, Nat.min_id. apply rsum_ext. intros k _. rewrite combine_nth by exact E. reflexivity. Qed.
Lemma added_share o P b row i ir c : coherent b -> (c < ir_dim ir)%nat ->
  lsum (all_idx (lead b)) (fun z => added P o (combine (irr b) (chunks b)) ir i z c * monomial row z) = share o P b row (last i 0%nat) ir c.
Proof.
  intros Cb Hc. pose proof (chunks_wf b Cb) as W. assert (L : length (irr b) = length (chunks b)) by (eapply Forall2_length, W). unfold share, added.
  rewrite (lsum_ext _ _ (fun z => rsum (length (irr b)) (fun a => let m := nth a (irr b) (0%nat, Irrep 0 Even) in (if irrep_eqb ir (snd m) then rsum (fst m) (fun k => nth c (nth k (chunk_rows m (nth a (chunks b) None) z) []) 0 / INR (fst m) * P (stp_name o (snd m)) k (last i 0%nat)) else 0) * monomial row z))).
  2:{ intros z _. rewrite (lsum_combine _ _ (0%nat, Irrep 0 Even) None) by exact L. rewrite <- rsum_scal_r. apply rsum_ext. intros a _. reflexivity. }
  rewrite lsum_rsum. apply rsum_ext. intros a Ha. cbv zeta. destruct (nth a (irr b) (0%nat, Irrep 0 Even)) as [mul ia] eqn:Ea. cbn [fst snd]. destruct (irrep_eqb ir ia) eqn:E; [|apply lsum_zero; intros; ring]. apply irrep_eqb_eq in E. subst ia.
  assert (En : nth_error (irr b) a = Some (mul, ir)) by (rewrite <- Ea; apply nth_error_nth', Ha). assert (Wa : wf_opt (lead b) (mul, ir) (nth a (chunks b) None)).
  { rewrite <- Ea. clear -W Ha. revert a Ha. induction W as [|m ch xs cs H W IH]; intros a Ha; [cbn in Ha; lia|]. destruct a; [exact H|]. apply IH. cbn in Ha. lia. }
  unfold Rdiv. rewrite <- rsum_scal_r.
  rewrite (lsum_ext _ _ (fun z => rsum mul (fun k => P (stp_name o ir) k (last i 0%nat) * / INR mul * (entry (irr b) (arr b z) a k c * monomial row z)))).
  2:{ intros z Hz. assert (Vz : valid (lead b) z) by (apply all_idx_valid, Hz). rewrite <- rsum_scal_r. apply rsum_ext. intros k Hk. rewrite (chunk_rows_tab _ _ _ z Wa Vz). cbn [fst snd]. unfold tab2. rewrite nth_tab by exact Hk. rewrite nth_tab by exact Hc. rewrite entry_chunks by (try assumption; exists mul, ir; auto). ring. }
  rewrite lsum_rsum. apply rsum_ext. intros k Hk. rewrite lsum_scal, entry_contracted by (try assumption; exists mul, ir; auto). ring.
Qed.

(* ---------- the call ---------- *)
Definition top (orders : list nat) : nat := fold_right Nat.max 0%nat orders.
Lemma top_le orders o : In o orders -> (o <= top orders)%nat.
Proof. induction orders as [|a l IH]; intros H; [destruct H|]. cbn [top fold_right]. fold (top l). destruct H as [->|H]; [lia|specialize (IH H); lia]. Qed.
Lemma inb_In l o : inb l o = true <-> In o l.
Proof. unfold inb. rewrite existsb_exists. split; [intros (k & Hk & E); apply Nat.eqb_eq in E; now subst|intros H; exists o; split; [exact H|apply Nat.eqb_refl]]. Qed.
Definition of_order (o : nat) (x : irreps) (b : iarray) : Prop := coherent b /\ lead b = repeat (dim x) o /\ StronglySorted (fun a a' => ir_ltb (snd a) (snd a') = true) (irr b).
Lemma sorted_NoDup (l : irreps) : StronglySorted (fun a a' => ir_ltb (snd a) (snd a') = true) l -> NoDup (map snd l).
Proof.
  induction 1 as [|m l H IH F]; [constructor|]. cbn [map]. constructor; [|exact IH]. intros Hin. apply in_map_iff in Hin as (m' & E & Hm'). rewrite Forall_forall in F. specialize (F m' Hm'). rewrite E, ir_ltb_irrefl in F. discriminate.
Qed.
Lemma orders_sum (orders : list nat) (f : nat -> R) : (forall o, In o orders -> (0 < o)%nat) -> lsum (seq 1 (top orders)) (fun o => if inb orders o then f o else 0) = lsum (nodup Nat.eq_dec orders) f.
Proof.
  intros H. rewrite <- lsum_filter. apply lsum_perm, NoDup_Permutation; [apply NoDup_filter, seq_NoDup|apply NoDup_nodup|]. intros o. rewrite filter_In, in_seq, inb_In, nodup_In. split; [tauto|]. intros Ho. split; [|exact Ho]. specialize (H o Ho). pose proof (top_le orders o Ho). lia.
Qed.
Definition out_irreps (l : list irrep) : irreps := map (fun ir => (1%nat, ir)) l.
Theorem stp_ok basis orders keep P x U : coherent x -> orders <> [] -> (forall o, In o orders -> (0 < o)%nat) -> lead x <> [] ->
  (forall o, (1 <= o <= top orders)%nat -> basis (irr x) o keep = Ok (U o) /\ of_order o (irr x) (U o)) ->
  exists l, StronglySorted (fun a b => ir_ltb a b = true) l /\ (forall ir, In ir l <-> exists o, In o orders /\ In ir (map snd (irr (U o)))) /\
    yields (stp_call basis orders keep P x) (out_irreps l) (lead x) (fun i => rowof (out_irreps l) (fun k _ c => lsum (nodup Nat.eq_dec orders) (fun o => share o P (U o) (arr x i) (last i 0%nat) (nth k l (Irrep 0 Even)) c))).
Proof.
  intros Cx No Po Lx HB. unfold stp_call. assert (A1 : forallb (fun o => (0 <? o)%nat) orders = true) by (apply forallb_forall; intros o Ho; apply Nat.ltb_lt, Po, Ho). rewrite A1. cbn [assert bind].
  assert (A2 : negb (length (lead x) =? 0)%nat = true) by (destruct (lead x); [contradiction|reflexivity]). rewrite A2. cbn [assert bind].
  assert (Tk : forall o, (1 <= o <= top orders)%nat -> tirs (T U o) = map snd (irr (U o))).
  { intros o Ho. destruct (HB o Ho) as [_ (Cb & _)]. assert (L : length (irr (U o)) = length (chunks (U o))) by (eapply Forall2_length, (chunks_wf _ Cb)). unfold tirs, T. rewrite <- (map_map fst snd). f_equal. revert L. generalize (chunks (U o)). induction (irr (U o)) as [|m y IH]; intros [|c cs] L; try discriminate; [reflexivity|]. cbn [combine map fst]. f_equal. apply IH. now injection L. }
  destruct (loop_ok basis orders keep P (irr x) (arr x) (top orders) U (top orders) []) as (out & E & ND & K & Pl & V); [lia| | |].
  { intros o Ho. destruct (HB o Ho) as [EB (Cb & Lb & Sb)]. split; [exact EB|]. rewrite Tk by exact Ho. now apply sorted_NoDup. }
  { split; [constructor|]. split; [intros ir; split; [intros []|intros (o & Ho & _); lia]|]. split; [discriminate|]. intros ir i z c. rewrite Nat.sub_diag. reflexivity. }
  fold (top orders). destruct orders as [|o1 orders'] eqn:Eo; [contradiction|]. rewrite <- Eo in *. clear o1 orders' Eo. rewrite E. cbn [bind]. set (l := sorted_by ir_ltb (map fst out)). exists l.
  pose proof (sorted_by_perm ir_ltb (map fst out)) as Pm. split; [apply sorted_by_sorted; [exact ir_ltb_trans|exact ir_ltb_total|exact ND]|]. split.
  - intros ir. unfold l. split.
    + intros H. apply (Permutation_in _ Pm), K in H as (o & Ho & H1 & H2). apply inb_In in H1. exists o. split; [exact H1|]. rewrite <- Tk by lia. exact H2.
    + intros (o & Ho & H). apply (Permutation_in _ (Permutation_sym Pm)), K. exists o. pose proof (Po o Ho). pose proof (top_le _ o Ho). split; [lia|]. split; [now apply inb_In|]. rewrite Tk by lia. exact H.
  - fold (out_irreps l).
    set (ch := fun ir => Some (Chunk (lead x) 1 (ir_dim ir) (fun i => [map (fun c => match find ir out with Some (Plain t) => t i [] c | _ => 0%R end) (seq 0 (ir_dim ir))]))).
    eapply yields_ext; [|apply from_chunks_rowof].
    2:{ unfold out_irreps. clear. induction l as [|ir l IH]; [constructor|]. cbn [map]. constructor; [|exact IH]. unfold ch. cbn [wf_opt]. repeat split; try reflexivity. constructor; [rewrite map_length, seq_length; reflexivity|constructor]. }
    intros i Hi. cbv beta. apply rowof_ext. intros k u c (m & ir & En & Hu & Hc). unfold out_irreps in En. rewrite nth_error_map in En. destruct (nth_error l k) as [ir'|] eqn:Ek; [|discriminate]. cbn in En. injection En as <- <-. assert (u = 0)%nat by lia. subst u.
    rewrite (nth_error_nth _ _ _ Ek). assert (Hk : (k < length l)%nat) by (apply nth_error_Some; congruence). rewrite (nth_indep _ None (ch (Irrep 0 Even))) by (rewrite map_length; exact Hk). rewrite map_nth, (nth_error_nth _ _ _ Ek). unfold ch. cbn [centry c_val nth].
    change (map ?f (seq 0 (ir_dim ir'))) with (tab (ir_dim ir') f). rewrite nth_tab by exact Hc. change (old ir' out i [] c = lsum (nodup Nat.eq_dec orders) (fun o => share o P (U o) (arr x i) (last i 0%nat) ir' c)).
    rewrite V, Nat.sub_0_r. rewrite <- (orders_sum orders) by exact Po. apply lsum_ext. intros o Ho. apply in_seq in Ho. unfold term. destruct (inb orders o); [|reflexivity]. destruct (HB o ltac:(lia)) as [_ (Cb & Lb & _)]. rewrite Nat.sub_0_r, <- Lb. unfold T. cbn [app]. now apply added_share.
Qed.
Lemma inv_start orders P x rows U : inv orders P x rows (top orders) U (top orders) [].
Proof. split; [constructor|]. split; [intros ir; split; [intros []|intros (o & Ho & _); lia]|]. split; [discriminate|]. intros ir i z c. rewrite Nat.sub_diag. reflexivity. Qed.
Lemma tirs_of o x b : of_order o x b -> tirs (combine (irr b) (chunks b)) = map snd (irr b).
Proof.
  intros (Cb & _). assert (L : length (irr b) = length (chunks b)) by (eapply Forall2_length, (chunks_wf _ Cb)). unfold tirs. rewrite <- (map_map fst snd). f_equal. revert L. generalize (chunks b). induction (irr b) as [|m y IH]; intros [|c cs] L; try discriminate; [reflexivity|]. cbn [combine map fst]. f_equal. apply IH. now injection L.
Qed.
Lemma stp_err basis orders keep P x U e o : (forall o, In o orders -> (0 < o)%nat) -> lead x <> [] -> (1 <= o <= top orders)%nat -> basis (irr x) o keep = Err e ->
  (forall o, (1 <= o <= top orders)%nat -> (basis (irr x) o keep = Ok (U o) /\ of_order o (irr x) (U o)) \/ basis (irr x) o keep = Err e) -> stp_call basis orders keep P x = Err e.
Proof.
  intros Po Lx Ho Eo HB. unfold stp_call. assert (A1 : forallb (fun o => (0 <? o)%nat) orders = true) by (apply forallb_forall; intros o' Ho'; apply Nat.ltb_lt, Po, Ho'). rewrite A1. cbn [assert bind].
  assert (A2 : negb (length (lead x) =? 0)%nat = true) by (destruct (lead x); [contradiction|reflexivity]). rewrite A2. cbn [assert bind]. fold (top orders).
  assert (E : stp_loop basis orders keep P (irr x) (arr x) (top orders) [] = Err e).
  { apply (loop_err basis orders keep P (irr x) (arr x) (top orders) U e o Eo); [|lia|exact Ho|apply inv_start]. intros o' Ho'. destruct (HB o' Ho') as [[EB OB]|EB]; [left; split; [exact EB|]|right; exact EB]. unfold T. rewrite (tirs_of o' _ _ OB). apply sorted_NoDup, OB. }
  destruct orders as [|o1 orders'] eqn:Q; [cbn in Ho; lia|]. rewrite <- Q in *. rewrite E. reflexivity.
Qed.
