(* C62, continued: what the normalisations are for. *)
From Coq Require Import Reals Lra Lia List Arith Bool String.
From Verif Require Import PyBase PermModel PermProofs IrrepsModel IrrepsProofs IrrepsProofs2 ArrayModel ArrayProofs ArrayOps RechunkProofs ArithProofs LeadModel LeadProofs BlockProofs BilinProofs ActProofs EquivProofs SumR ActivationModel NormModel LinearModel LinearProofs LinearProps TPProps3 GradProofs LinModProofs TPProofs TPProofs2 EntryProofs.
From Verif Require Import MlpModel MlpProps.
Import ListNotations.
Open Scope nat_scope.

(* ---- initial variance ---- *)
Lemma Ex_rsum O (Ex : (O -> R) -> R) n (f : nat -> O -> R) : expectation O Ex -> Ex (fun w => rsum n (fun k => f k w)) = rsum n (fun k => Ex (f k)).
Proof.
  intros HE. induction n as [|n IH].
  - cbn [rsum]. rewrite (Ex_ext O Ex HE _ (fun w => 0 * 0)%R) by (intros; cbn; ring). rewrite (Ex_scal O Ex HE 0%R (fun _ => 0%R)). ring.
  - cbn [rsum]. rewrite (Ex_plus O Ex HE). now rewrite IH.
Qed.
(* Weights of a layer with n inputs drawn with mean square init_stddev^2 and pairwise uncorrelated, no bias: whatever the gradient normalisation, the
   second moment of every unit before its activation is the mean square of the layer's inputs. *)
Theorem C62_unit_variance (O : Type) (Ex : (O -> R) -> R) conf pts act g gn (W : nat -> nat -> O -> R) s n h a i j : expectation O Ex -> gradient_number conf g = Ok gn ->
  0 < n -> j < h -> length (a i) = n ->
  (forall q q', q < n -> q' < n -> Ex (fun w => W q j w * W q' j w)%R = (kron q q' * (init_stddev gn n * init_stddev gn n))%R) ->
  exists b : O -> idx -> list R, (forall w, mlp_call conf pts (Mlp [h] act g OFalse false) (fun _ => (fun q j => W q j w, fun _ => 0%R)) (MBare s n a) = Ok (MBare s h (b w))) /\
    Ex (fun w => nth j (b w i) 0 * nth j (b w i) 0)%R = (lsum (a i) (fun t => t * t) / INR n)%R.
Proof.
  intros HE G Hn Hj La HW. set (P := fun w (_ : nat) => (fun q j => W q j w, fun _ : nat => 0%R)). set (c := Rpower (sqrt (1 / INR n)) gn).
  exists (fun w i => layer_row gn false None (P w 0) n h (a i)). split.
  - intros w. unfold mlp_call. cbn [m_gradient m_output output_activation option_map m_with_bias list_neurons]. rewrite G. cbn [bind]. rewrite layers_rows; [reflexivity|]. intros _. constructor; [lia|constructor].
  - assert (V : forall w, nth j (layer_row gn false None (P w 0) n h (a i)) 0%R = (c * rsum n (fun q => nth q (a i) 0 * W q j w))%R).
    { intros w. unfold layer_row, apply_act, dense. rewrite map_map. rewrite (nth_map_at _ _ _ 0) by (rewrite seq_length; exact Hj). rewrite seq_nth by exact Hj. cbn [Nat.add P fst]. fold c. ring. }
    rewrite (Ex_ext O Ex HE _ (fun w => (c * c) * rsum n (fun q => rsum n (fun q' => (nth q (a i) 0 * nth q' (a i) 0) * (W q j w * W q' j w))))%R).
    2:{ intros w. rewrite V. replace (c * rsum n (fun q => nth q (a i) 0 * W q j w) * (c * rsum n (fun q => nth q (a i) 0 * W q j w)))%R with (c * c * (rsum n (fun q => nth q (a i) 0 * W q j w) * rsum n (fun q => nth q (a i) 0 * W q j w)))%R by ring. rewrite rsum_sq. f_equal. apply rsum_ext. intros q _. apply rsum_ext. intros q' _. ring. }
    rewrite (Ex_scal O Ex HE). rewrite (Ex_rsum O Ex n _ HE).
    rewrite (rsum_ext n _ (fun q => (init_stddev gn n * init_stddev gn n) * (nth q (a i) 0 * nth q (a i) 0))%R).
    2:{ intros q Hq. rewrite (Ex_rsum O Ex n _ HE). rewrite (rsum_ext n _ (fun q' => kron q q' * (init_stddev gn n * init_stddev gn n * (nth q (a i) 0 * nth q' (a i) 0)))%R) by (intros q' Hq'; rewrite (Ex_scal O Ex HE), HW by assumption; ring). rewrite rsum_kron_r by exact Hq. ring. }
    rewrite rsum_scal. assert (E1 : (c * c * (init_stddev gn n * init_stddev gn n) = / INR n)%R).
    { unfold c, init_stddev. assert (Pn : (0 < INR n)%R) by (apply lt_0_INR; exact Hn). assert (Ps : (0 < sqrt (1 / INR n))%R) by (apply sqrt_lt_R0; apply Rdiv_lt_0_compat; lra).
      replace (Rpower (sqrt (1 / INR n)) gn * Rpower (sqrt (1 / INR n)) gn * (Rpower (sqrt (1 / INR n)) (1 - gn) * Rpower (sqrt (1 / INR n)) (1 - gn)))%R with ((Rpower (sqrt (1 / INR n)) gn * Rpower (sqrt (1 / INR n)) (1 - gn)) * (Rpower (sqrt (1 / INR n)) gn * Rpower (sqrt (1 / INR n)) (1 - gn)))%R by ring.
      rewrite <- Rpower_plus. replace (gn + (1 - gn))%R with 1%R by ring. rewrite Rpower_1 by exact Ps. rewrite sqrt_sqrt; [unfold Rdiv; ring|]. apply Rlt_le, Rdiv_lt_0_compat; lra. }
    rewrite <- Rmult_assoc, E1. assert (E2 : rsum n (fun q => nth q (a i) 0 * nth q (a i) 0)%R = lsum (a i) (fun t => t * t)%R); [|rewrite E2; unfold Rdiv; ring].
    rewrite <- La. rewrite <- lsum_seq. transitivity (lsum (map (fun q => nth q (a i) 0%R) (seq 0 (length (a i)))) (fun t => t * t)%R); [now rewrite lsum_map|]. now rewrite map_nth_seq.
Qed.

(* ---- the gradient normalisation only changes how the function is parametrised ---- *)
(* the parameters to use under the normalisation gn' to compute what P computes under gn *)
Definition input_size (w : nat) (l : list nat) (k : nat) : nat := match k with 0 => w | S k => nth k l 0 end.
Definition rescaled (gn gn' : R) (w : nat) (l : list nat) (P : mlp_params) : mlp_params := fun k =>
  let c := Rpower (INR (input_size w l k)) ((gn' - gn) / 2) in (fun q j => c * fst (P k) q j, fun j => c * snd (P k) j)%R.
Lemma rsum_factor n c f : rsum n (fun k => c * f k)%R = (c * rsum n f)%R.
Proof. apply rsum_scal. Qed.
Lemma run_rescaled pts M P gn gn' w h g' : length (h 0) = w -> network_run pts M P gn h -> inputs_nonempty w (list_neurons M) ->
  network_run pts (Mlp (list_neurons M) (m_act M) g' (m_output M) (m_with_bias M)) (rescaled gn gn' w (list_neurons M) P) gn' h.
Proof.
  intros L0 H N k n Hk. cbn [list_neurons m_with_bias] in *. destruct (H k n Hk) as [L V]. split; [exact L|]. intros j Hj. rewrite V by exact Hj. unfold activation_of. cbn [output_activation m_output m_act list_neurons]. match goal with |- ?f ?a = ?g ?b => change (f a = f b); apply (f_equal f) end. unfold rescaled. cbn [fst snd].
  assert (Ls : length (h k) = input_size w (list_neurons M) k). { destruct k as [|k]; [exact L0|]. cbn [input_size]. destruct (nth_error (list_neurons M) k) as [n'|] eqn:En; [|apply nth_error_None in En; assert (nth_error (list_neurons M) (S k) <> None) as C by congruence; apply nth_error_Some in C; lia]. destruct (H k n' En) as [L' _]. rewrite L'. symmetry. now apply nth_error_nth. }
  rewrite <- Ls. set (m := length (h k)) in *. set (c := Rpower (INR m) ((gn' - gn) / 2)).
  rewrite (rsum_ext m (fun q => nth q (h k) 0 * (c * fst (P k) q j))%R (fun q => c * (nth q (h k) 0 * fst (P k) q j))%R) by (intros; ring). rewrite rsum_factor.
  assert (E : (Rpower (INR m) (- gn / 2) = Rpower (INR m) (- gn' / 2) * c)%R) by (unfold c; rewrite <- Rpower_plus; f_equal; field). rewrite E. destruct (m_with_bias M); ring.
Qed.
Theorem C62_reparametrisation conf conf' pts M P g' gn gn' s w a : gradient_number conf (m_gradient M) = Ok gn -> gradient_number conf' g' = Ok gn' -> inputs_nonempty w (list_neurons M) -> (forall i, valid s i -> length (a i) = w) ->
  exists b b', mlp_call conf pts M P (MBare s w a) = Ok (MBare s (last (list_neurons M) w) b) /\
    mlp_call conf' pts (Mlp (list_neurons M) (m_act M) g' (m_output M) (m_with_bias M)) (rescaled gn gn' w (list_neurons M) P) (MBare s w a) = Ok (MBare s (last (list_neurons M) w) b') /\
    forall i, valid s i -> b i = b' i.
Proof.
  intros G G' N La. destruct (C62_value conf pts M P w gn G N) as (f & Ef & Vf). set (M' := Mlp (list_neurons M) (m_act M) g' (m_output M) (m_with_bias M)).
  destruct (C62_value conf' pts M' (rescaled gn gn' w (list_neurons M) P) w gn' G' N) as (f' & Ef' & Vf'). exists (fun i => f (a i)), (fun i => f' (a i)). split; [apply Ef|]. split; [apply Ef'|]. intros i Hi.
  destruct (Vf (a i) (La i Hi)) as (_ & h & H0 & H1 & HR). destruct (Vf' (a i) (La i Hi)) as (_ & h' & H0' & H1' & HR'). rewrite <- H1, <- H1'. apply (C62_run_unique pts M' (rescaled gn gn' w (list_neurons M) P) gn' h h'); [|exact HR'|congruence].
  apply run_rescaled; [rewrite H0; now apply La|exact HR|exact N].
Qed.


(* ---- the hypotheses are met ---- *)
Example C62_nonvacuous : let M := Mlp [3; 2] (Some (fun t => t * t)%R) None OFalse true in
  gradient_number default_conf (m_gradient M) = Ok 1%R /\ inputs_nonempty 4 (list_neurons M) /\ ~ inputs_nonempty 4 [3; 0; 2] /\
  (exists b, mlp_call default_conf [0; 1]%R M (fun _ => (fun _ _ => 1, fun _ => 0))%R (MBare [5] 4 (fun _ => [1; 1; 1; 1]%R)) = Ok (MBare [5] 2 b)) /\
  is_scalar [(2, Irrep 0 Even); (2, Irrep 0 Even)] = true.
Proof.
  cbv zeta. split; [reflexivity|]. split; [intros _; cbn; repeat constructor; discriminate|]. split; [intros H; specialize (H ltac:(discriminate)); cbn in H; rewrite Forall_forall in H; apply (H 0); [cbn; auto|reflexivity]|]. split; [|reflexivity].
  destruct (C62_value default_conf [0; 1]%R (Mlp [3; 2] (Some (fun t => t * t)%R) None OFalse true) (fun _ => (fun _ _ => 1, fun _ => 0))%R 4 1%R eq_refl) as (f & Ef & _); [intros _; cbn; repeat constructor; discriminate|]. eexists. apply Ef.
Qed.
