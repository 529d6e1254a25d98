(* The optimised branch: reduced bases for the sorted words give a reduced basis of the symmetric tensors. *)
From Coq Require Import Reals Lra Lia List Arith Permutation Sorted ZArith.
From Verif Require Import PyBase PermModel PermProofs IrrepsModel IrrepsProofs IrrepsProofs2 ArrayModel ArrayProofs ArrayOps RechunkProofs LeadModel LeadProofs StackProofs ActProofs EquivProofs EntryProofs LinearProofs ScatterProps SumR S2Proofs3 TPModel TPProofs TPProofs2 RotationModel RotationProofs CGModel WignerModel WignerProofs WignerProofs2 WignerProps WignerProps2 CGComplete SymModel SymProofs SymProofs2 SymProps3 SchurProofs MultProofs CouplingProofs ReducedProofs ConstrainProofs RtpModel RtpSpace RtpTools RtpArr RtpMasks RtpPerm RtpSymModel RtpWords RtpSymmetrize.
From Verif Require GradProofs.
Import ListNotations.
Open Scope R_scope.

Section Fam.
Variables (cs : list irrep) (n : nat).
Notation X := (space (repeat cs n)).
Notation rX := (rho (repeat cs n)).
Notation Xs s := (space (lw cs s)).
Notation rs s := (rho (lw cs s)).
Notation arrs s := (map fst (distinct_permutations s)).
Definition up (s : list nat) (t : mult idx) : mult idx := (fst t, fun z m => spread cs s (comp t m) z).
Definition ups (Ss : list (list nat)) (F : list nat -> list (mult idx)) : list (mult idx) := flat_map (fun s => map (up s) (F s)) Ss.
Definition down (s : list nat) (t : mult idx) : mult idx := (fst t, fun a m => pull cs s (comp t m) a).
Variables (Ss : list (list nat)) (F : list nat -> list (mult idx)) (K : irrep -> Prop).
Hypothesis Hw : forall s, In s Ss -> In s (words cs n).
Hypothesis Hd : pairwise (fun s s' => forall w, In w (arrs s) -> ~ In w (arrs s')) Ss.
Hypothesis Hc : forall w, In w (words cs n) -> exists s, In s Ss /\ In w (arrs s).
Hypothesis Hr : forall s, In s Ss -> reduced (Xs s) (rs s) K (fixed cs n s) (F s).

Lemma up_covariant s t : In s Ss -> covariant (Xs s) (rs s) t -> covariant X rX (up s t).
Proof.
  intros Hs C r z m O Hz Hm. cbn [up fst snd] in *. pose proof (spread_rot cs n s (Hw s Hs) r (comp t m) z Hz) as E. etransitivity; [exact E|].
  rewrite (spread_ext cs n s (Hw s Hs) _ (fun a => rsum (ir_dim (fst t)) (fun m' => D_from_matrix r (fst t) m' m * snd t a m')) z) by (try exact Hz; intros a Ha; apply (C r a m O Ha Hm)).
  rewrite (spread_rsum cs s). reflexivity.
Qed.
Lemma down_covariant s t : In s Ss -> covariant X rX t -> covariant (Xs s) (rs s) (down s t).
Proof.
  intros Hs C r a m O Ha Hm. cbn [down fst snd] in *. pose proof (pull_rot cs n s (Hw s Hs) r (comp t m) a Ha) as E. etransitivity; [exact E|]. unfold pull.
  pose proof (C r (iota cs s a) m O (iota_in cs n s a (Hw s Hs) Ha) Hm) as Q. rewrite Q. rewrite <- rsum_scal. apply rsum_ext. intros k _. ring.
Qed.
(* every symmetric tensor is the sum of its parts *)
Lemma symm_parts f z : symm cs n f -> In z X -> f z = lsum Ss (fun s => spread cs s (pull cs s f) z).
Proof.
  intros Hf Hz. destruct (split_space cs n z Hz) as (w & a & Hwd & Ha & ->). destruct (Hc w Hwd) as (s & Hs & Ws).
  assert (N : NoDup Ss).
  { apply pairwise_nodup. apply (pairwise_impl (fun s s' => forall w, In w (arrs s) -> ~ In w (arrs s'))); [|exact Hd]. intros u u' Hu _ Q ->. pose proof (distinct_all u' (identity n) (identity_perm n)) as D. assert (Lu : length u' = n) by (apply Hw, in_words in Hu; apply Hu). specialize (D ltac:(unfold identity; rewrite seq_length; congruence)). exact (Q _ D D). }
  rewrite (GradProofs.lsum_one Ss _ s N Hs).
  - symmetry. apply (spread_pull cs n s (Hw s Hs)); assumption.
  - intros s' Hs' Ne. apply (spread_out cs n s' (Hw s' Hs')); [exact Hwd| |exact Ha]. intros Q. clear -Hd Hs Hs' Ne Ws Q. induction Ss as [|u l IH]; [contradiction|]. destruct Hd as [D1 D2]. rewrite Forall_forall in D1. destruct Hs as [-> |Hs], Hs' as [-> |Hs']; [contradiction|exact (D1 s' Hs' w Ws Q)|exact (D1 s Hs w Q Ws)|exact (IH D2 Hs Hs')].
Qed.
Lemma in_ups t : In t (ups Ss F) -> exists s t', In s Ss /\ In t' (F s) /\ t = up s t'.
Proof. intros H. apply in_flat_map in H as (s & Hs & H). apply in_map_iff in H as (t' & <- & H). eauto. Qed.
Lemma permute_X q z : is_perm q = true -> length q = n -> In z X -> In (permute z q) X.
Proof.
  intros P L Hz. destruct (split_space cs n z Hz) as (w & a & Hwd & Ha & ->). assert (Lw : length w = n) by (apply in_words in Hwd; apply Hwd). assert (La : length a = length w) by (apply in_lw in Ha; apply Ha). rewrite permute_iota by (auto; congruence). apply (iota_in cs n); [apply permute_word; auto|apply permute_lw; auto; congruence].
Qed.
Lemma symm_subspace : subspace X (symm cs n).
Proof.
  constructor.
  - intros f g E Hf q z P L Hz. rewrite <- E by (apply permute_X; assumption). rewrite <- E by exact Hz. apply Hf; assumption.
  - intros q z P L Hz. reflexivity.
  - intros f g Hf Hg q z P L Hz. rewrite (Hf q z P L Hz), (Hg q z P L Hz). reflexivity.
  - intros c f Hf q z P L Hz. rewrite (Hf q z P L Hz). reflexivity.
Qed.
Theorem ups_reduced : reduced X rX K (symm cs n) (ups Ss F).
Proof.
  constructor.
  - apply Forall_forall. intros t Ht. apply in_ups in Ht as (s & t' & Hs & Ht' & ->). apply up_covariant; [exact Hs|]. pose proof (red_cov _ _ _ _ _ (Hr s Hs)) as Q. rewrite Forall_forall in Q. auto.
  - apply Forall_forall. intros t Ht. apply in_ups in Ht as (s & t' & Hs & Ht' & ->). pose proof (red_unit _ _ _ _ _ (Hr s Hs)) as Q. rewrite Forall_forall in Q. intros m m' Hm Hm'. rewrite <- (Q t' Ht' m m' Hm Hm'). apply (spread_dot cs n s (Hw s Hs) (comp t' m) (comp t' m')).
  - apply pairwise_flat_map.
    + intros s Hs. rewrite pairwise_map. apply (pairwise_impl (orth_mult (Xs s))); [|exact (red_orth _ _ _ _ _ (Hr s Hs))]. intros t t' _ _ Q m m' Hm Hm'. rewrite <- (Q m m' Hm Hm'). apply (spread_dot cs n s (Hw s Hs) (comp t m) (comp t' m')).
    + apply (pairwise_impl (fun s s' => forall w, In w (arrs s) -> ~ In w (arrs s'))); [|exact Hd]. intros s s' Hs Hs' Q t t' Ht Ht'. apply in_map_iff in Ht as (u & <- & Hu). apply in_map_iff in Ht' as (u' & <- & Hu'). intros m m' _ _. apply (spread_disjoint cs n s s' (comp u m) (comp u' m') (Hw s Hs) (Hw s' Hs') Q).
  - apply Forall_forall. intros t Ht. apply in_ups in Ht as (s & t' & Hs & Ht' & ->). pose proof (red_keep _ _ _ _ _ (Hr s Hs)) as Q. rewrite Forall_forall in Q. exact (Q t' Ht').
  - intros t m Ht Hm. apply in_ups in Ht as (s & t' & Hs & Ht' & ->). pose proof (red_in _ _ _ _ _ (Hr s Hs) t' m Ht' Hm) as Q. intros q z P L Hz. exact (spread_symmetric cs n s (Hw s Hs) (comp t' m) q z Q P L Hz).
  - intros t Ct Kt Wt m Hm z Hz. specialize (Wt m Hm) as Sm. rewrite (symm_parts (comp t m) z Sm Hz). unfold expand. unfold ups at 1. rewrite lsum_columns, lsum_flat_map. apply lsum_ext. intros s Hs. rewrite lsum_map. cbn [up fst].
    assert (Q : repro (Xs s) (columns (F s)) (pull cs s (comp t m))).
    { apply (red_all _ _ _ _ _ (Hr s Hs) (down s t) (down_covariant s t Hs Ct) Kt); [|exact Hm]. intros m' Hm'. apply (pull_fixed cs n s (Hw s Hs) (comp t m')). apply Wt, Hm'. }
    rewrite <- (spread_ext cs n s (Hw s Hs) _ _ z Q Hz). unfold expand. rewrite (spread_lsum cs s (columns (F s)) (fun g => dot (Xs s) (pull cs s (comp t m)) g) (fun g => g)). rewrite lsum_columns. apply lsum_ext. intros t' _. apply rsum_ext. intros k Hk. cbn [snd]. f_equal. apply (dot_pull cs n s (Hw s Hs) (comp t m) (comp t' k) Sm).
Qed.
End Fam.
