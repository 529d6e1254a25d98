(* Reduced bases under a change of index set, under extensional equality, and as arrays. *)
From Coq Require Import Reals Lra Lia List Arith Permutation.
From Verif Require Import PyBase PermModel IrrepsModel IrrepsProofs IrrepsProofs2 ArrayModel ArrayProofs LeadModel StackProofs ActProofs EntryProofs LinearProofs ScatterProps SumR S2Proofs3 RotationModel RotationProofs CGModel WignerModel WignerProofs WignerProofs2 WignerProps WignerProps2 CGComplete SchurProofs MultProofs CouplingProofs ReducedProofs ConstrainProofs RtpSpace.
Import ListNotations.
Open Scope R_scope.

(* ---------- extensional equality ---------- *)
Section Ext.
Context {A : Type}.
Variables (X : list A) (rho : mat -> A -> A -> R).
Definition same (t s : mult A) : Prop := fst t = fst s /\ forall x m, In x X -> (m < ir_dim (fst t))%nat -> snd t x m = snd s x m.
Definition sames (L L' : list (mult A)) : Prop := Forall2 same L L'.
Lemma same_refl t : same t t. Proof. split; auto. Qed.
Lemma same_sym t s : same t s -> same s t.
Proof. intros [E H]. split; [auto|]. intros x m Hx Hm. symmetry. apply H; [exact Hx|rewrite E; exact Hm]. Qed.
Lemma same_trans t s u : same t s -> same s u -> same t u.
Proof. intros [E H] [E' H']. split; [congruence|]. intros x m Hx Hm. rewrite H by assumption. apply H'; [exact Hx|rewrite <- E; exact Hm]. Qed.
Lemma sames_refl L : sames L L. Proof. induction L; constructor; [apply same_refl|assumption]. Qed.
Lemma sames_sym L L' : sames L L' -> sames L' L.
Proof. induction 1; constructor; [apply same_sym; assumption|assumption]. Qed.
Lemma sames_trans L L' L'' : sames L L' -> sames L' L'' -> sames L L''.
Proof. intros H. revert L''. induction H as [|t s L L' H1 H IH]; intros L'' H'; inversion H'; subst; constructor; [eapply same_trans; eassumption|apply IH; assumption]. Qed.
Lemma same_covariant t s : same t s -> covariant X rho t -> covariant X rho s.
Proof.
  intros [E H] C r x m O Hx Hm. rewrite <- E in *. rewrite <- (rot_ext X rho (comp t m) (comp s m)) by (intros y Hy; apply H; assumption). rewrite (C r x m O Hx Hm). apply rsum_ext. intros k Hk. rewrite H by assumption. reflexivity.
Qed.
Lemma same_unit t s : same t s -> unit_mult X t -> unit_mult X s.
Proof. intros [E H] U m m' Hm Hm'. rewrite <- E in *. rewrite <- (U m m' Hm Hm'). apply dot_ext; intros y Hy; symmetry; apply H; assumption. Qed.
Lemma same_orth t s t' s' : same t s -> same t' s' -> orth_mult X t t' -> orth_mult X s s'.
Proof. intros [E H] [E' H'] U m m' Hm Hm'. rewrite <- E in *. rewrite <- E' in *. rewrite <- (U m m' Hm Hm'). apply dot_ext; intros y Hy; symmetry; auto. Qed.
Lemma sames_in L L' s : sames L L' -> In s L' -> exists t, In t L /\ same t s.
Proof. induction 1 as [|t u L L' H1 H IH]; intros I; [contradiction|]. destruct I as [<-|I]; [exists t; split; [left; reflexivity|exact H1]|]. destruct (IH I) as (v & Hv & Q). exists v. split; [right; exact Hv|exact Q]. Qed.
Lemma sames_pairwise L L' : sames L L' -> pairwise (orth_mult X) L -> pairwise (orth_mult X) L'.
Proof.
  induction 1 as [|t s L L' H1 H IH]; intros P; [exact Logic.I|]. destruct P as [P1 P2]. split; [|apply IH, P2]. apply Forall_forall. intros u Hu. destruct (sames_in _ _ u H Hu) as (v & Hv & Q). rewrite Forall_forall in P1. exact (same_orth t s v u H1 Q (P1 v Hv)).
Qed.
Lemma sames_expand L L' f x : sames L L' -> In x X -> expand X (columns L) f x = expand X (columns L') f x.
Proof.
  intros H Hx. unfold expand. rewrite !lsum_columns. induction H as [|t s L L' [E H1] H IH]; [reflexivity|]. rewrite !lsum_cons, IH. f_equal. rewrite <- E. apply rsum_ext. intros m Hm. rewrite H1 by assumption. f_equal. apply dot_ext; [reflexivity|]. intros y Hy. apply H1; assumption.
Qed.
Lemma reduced_sames K W L L' : subspace X W -> sames L L' -> reduced X rho K W L -> reduced X rho K W L'.
Proof.
  intros SW H [H1 H2 H3 H4 H5 H6]. rewrite Forall_forall in *. constructor.
  - apply Forall_forall. intros s Hs. destruct (sames_in _ _ s H Hs) as (t & Ht & Q). exact (same_covariant t s Q (H1 t Ht)).
  - apply Forall_forall. intros s Hs. destruct (sames_in _ _ s H Hs) as (t & Ht & Q). exact (same_unit t s Q (H2 t Ht)).
  - exact (sames_pairwise _ _ H H3).
  - apply Forall_forall. intros s Hs. destruct (sames_in _ _ s H Hs) as (t & Ht & Q). rewrite <- (proj1 Q). exact (H4 t Ht).
  - intros s m Hs Hm. destruct (sames_in _ _ s H Hs) as (t & Ht & [E Q]). rewrite <- E in Hm. apply (sub_ext X W SW (comp t m)); [intros y Hy; apply Q; assumption|]. apply H5; assumption.
  - intros t Ct Kt Wt m Hm x Hx. rewrite <- (sames_expand L L' _ x H Hx). apply (H6 t Ct Kt Wt m Hm x Hx).
Qed.
Lemma sames_app L L' M M' : sames L L' -> sames M M' -> sames (L ++ M) (L' ++ M').
Proof. apply Forall2_app. Qed.
Lemma sames_flat_map {S} (f g : S -> list (mult A)) l : (forall a, In a l -> sames (f a) (g a)) -> sames (flat_map f l) (flat_map g l).
Proof. induction l as [|a l IH]; intros H; [constructor|]. cbn [flat_map]. apply sames_app; [apply H; left; reflexivity|]. apply IH. intros b Hb. apply H. right. exact Hb. Qed.
Lemma sames_map {S} (f g : S -> mult A) l : (forall a, In a l -> same (f a) (g a)) -> sames (map f l) (map g l).
Proof. induction l as [|a l IH]; intros H; [constructor|]. cbn [map]. constructor; [apply H; left; reflexivity|]. apply IH. intros b Hb. apply H. right. exact Hb. Qed.
Lemma sames_perm L L' M : sames L L' -> Permutation L' M -> exists M', Permutation L M' /\ sames M' M.
Proof.
  intros H P. revert L H. induction P as [|a l l' P IH|a b l|l l' l'' P1 IH1 P2 IH2]; intros L H.
  - exists L. split; [apply Permutation_refl|exact H].
  - inversion H as [|t s L0 l0 H1 H2]; subst. destruct (IH _ H2) as (M' & Q1 & Q2). exists (t :: M'). split; [constructor; exact Q1|constructor; assumption].
  - inversion H as [|t s L0 l0 H1 H2]; subst. inversion H2 as [|t' s' L1 l1 H3 H4]; subst. exists (t' :: t :: L1). split; [apply perm_swap|constructor; [exact H3|constructor; [exact H1|exact H4]]].
  - destruct (IH1 L H) as (M1 & Q1 & Q2). destruct (IH2 M1 Q2) as (M2 & Q3 & Q4). exists M2. split; [eapply Permutation_trans; eassumption|exact Q4].
Qed.
(* the same family up to order *)
Definition similar (L L' : list (mult A)) : Prop := exists M, Permutation L M /\ sames M L'.
Lemma similar_sames L L' : sames L L' -> similar L L'. Proof. intros H. exists L. split; [apply Permutation_refl|exact H]. Qed.
Lemma similar_perm L L' : Permutation L L' -> similar L L'. Proof. intros H. exists L'. split; [exact H|apply sames_refl]. Qed.
Lemma similar_trans L L' L'' : similar L L' -> similar L' L'' -> similar L L''.
Proof. intros (M & P & H) (M' & P' & H'). destruct (sames_perm M L' M' H P') as (N & Q & Q'). exists N. split; [eapply Permutation_trans; eassumption|eapply sames_trans; eassumption]. Qed.
Lemma similar_sym L L' : similar L L' -> similar L' L.
Proof. intros (M & P & H). destruct (sames_perm L' M L (sames_sym _ _ H) (Permutation_sym P)) as (N & Q & Q'). exists N. split; assumption. Qed.
Lemma reduced_similar K W L L' : subspace X W -> similar L L' -> reduced X rho K W L -> reduced X rho K W L'.
Proof. intros SW (M & P & H) Q. apply (reduced_sames K W M L' SW H). exact (reduced_perm X rho K W L M P Q). Qed.
Lemma similar_in L L' s : similar L L' -> In s L' -> exists t, In t L /\ same t s.
Proof. intros (M & P & H) I. destruct (sames_in M L' s H I) as (t & Ht & Q). exists t. split; [exact (Permutation_in _ (Permutation_sym P) Ht)|exact Q]. Qed.
End Ext.

(* ---------- another index set ---------- *)
Section Iso.
Context {A B : Type}.
Variables (XA : list A) (XB : list B) (ra : mat -> A -> A -> R) (rb : mat -> B -> B -> R) (to : A -> B) (from : B -> A).
Hypothesis H1 : XB = map to XA.
Hypothesis H2 : forall x, In x XA -> from (to x) = x.
Hypothesis H3 : forall r x y, orthogonal3 r -> In x XA -> In y XA -> ra r x y = rb r (to x) (to y).
Definition pulled (t : mult B) : mult A := (fst t, fun x m => snd t (to x) m).
Lemma iso_dot (f g : B -> R) : dot XA (fun x => f (to x)) (fun x => g (to x)) = dot XB f g.
Proof. unfold dot. rewrite H1, lsum_map. reflexivity. Qed.
Lemma iso_rot r (f : B -> R) x : orthogonal3 r -> In x XA -> rot XA ra r (fun y => f (to y)) x = rot XB rb r f (to x).
Proof. intros O Hx. unfold rot. rewrite H1, lsum_map. apply lsum_ext. intros y Hy. rewrite H3 by assumption. reflexivity. Qed.
Lemma iso_covariant t : covariant XB rb t -> covariant XA ra (pulled t).
Proof. intros C r x m O Hx Hm. cbn [pulled fst snd] in *. rewrite (iso_rot r (comp t m) x O Hx). apply C; [exact O| |exact Hm]. rewrite H1. apply in_map, Hx. Qed.
Lemma iso_back (t : mult A) : covariant XA ra t -> covariant XB rb (fst t, fun y m => snd t (from y) m).
Proof.
  intros C r y m O Hy Hm. cbn [fst snd] in *. rewrite H1 in Hy. apply in_map_iff in Hy as (x & <- & Hx). rewrite H2 by exact Hx. rewrite <- (C r x m O Hx Hm). rewrite <- (iso_rot r (fun y => snd t (from y) m) x O Hx). apply rot_ext. intros z Hz. rewrite H2 by exact Hz. reflexivity.
Qed.
Lemma reduced_iso K W L : subspace XB W -> reduced XB rb K W L -> reduced XA ra K (fun f => W (fun y => f (from y))) (map pulled L).
Proof.
  intros SW [R1 R2 R3 R4 R5 R6]. rewrite Forall_forall in *. constructor.
  - apply Forall_forall. intros t Ht. apply in_map_iff in Ht as (s & <- & Hs). apply iso_covariant, R1, Hs.
  - apply Forall_forall. intros t Ht. apply in_map_iff in Ht as (s & <- & Hs). intros m m' Hm Hm'. cbn [pulled fst snd] in *. rewrite <- (R2 s Hs m m' Hm Hm'). apply (iso_dot (comp s m) (comp s m')).
  - rewrite pairwise_map. apply (pairwise_impl (orth_mult XB)); [|exact R3]. intros t s _ _ H m m' Hm Hm'. rewrite <- (H m m' Hm Hm'). apply (iso_dot (comp t m) (comp s m')).
  - apply Forall_forall. intros t Ht. apply in_map_iff in Ht as (s & <- & Hs). apply R4, Hs.
  - intros t m Ht Hm. apply in_map_iff in Ht as (s & <- & Hs). cbn [pulled fst snd] in *. apply (sub_ext XB W SW (comp s m)); [|apply R5; assumption]. intros y Hy. rewrite H1 in Hy. apply in_map_iff in Hy as (x & <- & Hx). rewrite H2 by exact Hx. reflexivity.
  - intros t Ct Kt Wt m Hm x Hx. pose proof (R6 _ (iso_back t Ct) Kt Wt m Hm (to x)) as Q. cbn [fst snd] in Q. rewrite H2 in Q by exact Hx. rewrite <- Q by (rewrite H1; apply in_map, Hx). unfold expand. rewrite !lsum_columns, lsum_map. apply lsum_ext. intros s Hs. cbn [pulled fst snd]. apply rsum_ext. intros k Hk. f_equal.
    rewrite <- (iso_dot (fun y => snd t (from y) m) (comp s k)). apply dot_ext; [|reflexivity]. intros z Hz. rewrite H2 by exact Hz. reflexivity.
Qed.
Lemma subspace_iso W : subspace XB W -> subspace XA (fun f => W (fun y => f (from y))).
Proof.
  intros SW. constructor.
  - intros f g E Wf. apply (sub_ext XB W SW _ _) with (2 := Wf). intros y Hy. rewrite H1 in Hy. apply in_map_iff in Hy as (x & <- & Hx). rewrite H2 by exact Hx. apply E, Hx.
  - exact (sub_zero XB W SW).
  - intros f g Wf Wg. exact (sub_plus XB W SW _ _ Wf Wg).
  - intros c f Wf. exact (sub_scal XB W SW c _ Wf).
Qed.
End Iso.
