(* The steps of the message passing convolution, row by row. *)
From Coq Require Import Reals Lra Lia List Arith Bool.
From Verif Require Import PyBase PermModel PermProofs IrrepsModel IrrepsProofs IrrepsProofs2 IrrepsStr ArrayModel ArrayProofs ArrayOps RechunkProofs ArithProofs LeadModel LeadProofs BlockProofs AxisProofs StackProofs BilinProofs ActProofs EquivProofs EquivProofs2 SumR EntryProofs ArrayProps2 TPModel TPProofs TPProofs2 TPProofs3 TPProps TPProps2 GradProofs CGModel RotationModel WignerModel WignerProofs WignerProofs2 WignerProps S2Model SHModel SHProps SHProps3 ScatterModel ScatterProps NormProofs LinearModel LinearProofs LinearProps LinearComplete LinModModel LinModProofs LinModProofs2 LinModProps MlpModel MlpProps ConvModel ConvProofs.
Import ListNotations.
Open Scope nat_scope.

Definition zero_like (x : irreps) (s : shape) (fl : list bool) : iarray := IA x s (fun _ => zero_row (dim x)) (Some fl) None.
Lemma zero_like_coherent x s fl : length fl = length x -> coherent (zero_like x s fl) /\ zero_flags (zero_like x s fl) = fl.
Proof.
  intros L. split; [|reflexivity]. split; [intros; apply repeat_length|]. split; [|exact Logic.I]. unfold zero_like, zero_flags. cbn [lead irr arr zf].
  assert (G : forall x fl n, dim x <= n -> length fl = length x -> flags_ok s x fl (fun _ : idx => zero_row n)).
  { clear. induction x as [|m x IH]; intros [|f fl] n D L; try discriminate; [exact Logic.I|]. rewrite dim_cons in D. cbn [flags_ok]. split.
    - intros _ i _. unfold zero_row. rewrite IrrepsProofs2.firstn_repeat. f_equal. lia.
    - replace (fun _ : idx => skipn (mi_dim m) (zero_row n)) with (fun _ : idx => zero_row (n - mi_dim m)).
      + apply IH; [lia|now injection L].
      + unfold zero_row. rewrite IrrepsProofs2.skipn_repeat. reflexivity. }
  apply G; [lia|exact L].
Qed.

Definition eqv (x x' : irreps) (f : list R -> list R) : Prop := forall D, rep_ok D -> scalar_trivial D -> forall row, length row = dim x -> act D x' (f row) = f (act D x row).
Definition linear_in (x : irreps) (f : list R -> list R) : Prop := forall t a b, length a = dim x -> length b = dim x -> f (lin t a b) = lin t (f a) (f b).

(* ---- Linear with the default arguments ---- *)
Section Module.
Variables (C : conv) (y x : irreps) (fl : list bool) (P : params) (L : flinear).
Let M := default_linear C y.
Let z0 := zero_like x [] fl.
Hypothesis Lf : length fl = length x.
Hypothesis EL : layer_for M z0 = Ok L.
Hypothesis HP : supplies P [] L.
Definition module_row (row : list R) : list R := call_T M P NoWeights L z0 (fun _ => row) [].
Lemma default_accepted z : accepted M NoWeights z (lead z).
Proof.
  split; try reflexivity.
  - apply default_connects.
  - intros c Q. discriminate Q.
  - split; [exact Logic.I|reflexivity].
Qed.
Lemma alike_irreps z : irr z = x -> zero_flags z = fl -> fed M z = fed M z0 /\ asked M z = asked M z0 /\ result_irreps M z = result_irreps M z0.
Proof. intros E F. unfold fed, asked, result_irreps, target, seen. cbn [m_channel m_simplify m_force M default_linear]. rewrite E, F. auto. Qed.
Lemma module_yields z : coherent z -> irr z = x -> zero_flags z = fl -> yields (module_call M P NoWeights z) (result_irreps M z0) (lead z) (fun i => module_row (arr z i)).
Proof.
  intros Cz Ez Fz. destruct (alike_irreps z Ez Fz) as (E1 & E2 & E3). assert (EL' : layer_for M z = Ok L) by (unfold layer_for; rewrite E1, E2; exact EL).
  pose proof (call_stage M P NoWeights z (lead z) L Cz (default_accepted z) EL' HP) as [R1 _ _ _]. rewrite <- E3. eapply yields_ext; [|apply (R1 z (conj eq_refl Cz) Cz eq_refl eq_refl)].
  intros i Hi. cbv beta. unfold module_row, call_T, post_T, mid_T, pre_T, layer_row. cbn [m_channel M default_linear inner_lead]. rewrite E1, E2, Ez, Fz. cbn [irr z0 zero_like]. unfold LinModProofs.layer_row. cbv beta. rewrite bidx_id by exact Hi.
  assert (W0 : row_weights M P NoWeights L = map (fun o _ => P (pname L o) []) (fl_ins L)) by reflexivity. rewrite W0, !map_map. reflexivity.
Qed.
Lemma valid_nil (i : idx) : valid [] i -> i = []. Proof. intros H. now inversion H. Qed.
Lemma module_row_eqv : eqv x (result_irreps M z0) module_row.
Proof.
  intros D HD HS row Lr. destruct (zero_like_coherent x [] fl Lf) as [C0 F0]. pose proof (call_stage M P NoWeights z0 [] L C0 (default_accepted z0) EL HP) as [_ _ _ A1]. apply (A1 D HD HS (fun _ => row) []); [constructor|]. intros; exact Lr.
Qed.
Lemma module_row_length row : length row = dim x -> length (module_row row) = dim (result_irreps M z0).
Proof.
  intros Lr. destruct (zero_like_coherent x [] fl Lf) as [C0 F0]. pose proof (call_stage M P NoWeights z0 [] L C0 (default_accepted z0) EL HP) as [_ _ N1 _]. apply (N1 (fun _ => row) []); [constructor|]. intros; exact Lr.
Qed.
Lemma module_row_linear : linear_in x module_row.
Proof.
  intros t a b La Lb. destruct (zero_like_coherent x [] fl Lf) as [C0 F0]. pose proof (call_linear M P NoWeights z0 [] L C0 (default_accepted z0) EL HP eq_refl) as CL. apply (CL t (fun _ => a) (fun _ => b) []); [constructor| |]; intros; assumption.
Qed.
End Module.
Lemma module_kin C y P z w r q : kin z w -> (forall L, layer_for (default_linear C y) z = Ok L -> supplies P [] L) -> module_call (default_linear C y) P NoWeights z = Ok r -> module_call (default_linear C y) P NoWeights w = Ok q -> kin r q.
Proof.
  intros K HP Er Eq. set (M := default_linear C y) in *. pose proof (zero_flags_length z (kin_l _ _ K)) as Lf.
  assert (EL : exists L, layer_for M (zero_like (irr z) [] (zero_flags z)) = Ok L) by (apply (C27_biases _ _ NoBias); exact Logic.I). destruct EL as [L EL].
  destruct (alike_irreps C y (irr z) (zero_flags z) z eq_refl eq_refl) as (E1 & E2 & _). assert (ELz : layer_for M z = Ok L) by (unfold layer_for, M; rewrite E1, E2; exact EL). specialize (HP L ELz).
  destruct (yields_inv _ _ _ _ _ Er (module_yields C y (irr z) (zero_flags z) P L EL HP z (kin_l _ _ K) eq_refl eq_refl)) as (I1 & _ & C1 & _).
  destruct (yields_inv _ _ _ _ _ Eq (module_yields C y (irr z) (zero_flags z) P L EL HP w (kin_r _ _ K) (eq_sym (kin_irr _ _ K)) (eq_sym (kin_flags _ _ K)))) as (I2 & _ & C2 & _). constructor; auto; [congruence|].
  unfold module_call, module_inputs in Er, Eq. cbn [M default_linear m_simplify m_force m_channel m_out] in Er, Eq.
  destruct (remove_zero_chunks z) as [a|] eqn:A; [|discriminate]. destruct (remove_zero_chunks w) as [b|] eqn:B; [|discriminate]. cbn [bind] in *. destruct (ia_regroup a) as [a1|] eqn:A1; [|discriminate]. destruct (ia_regroup b) as [b1|] eqn:B1; [|discriminate]. cbn [bind] in *.
  pose proof (respects_drop _ _ _ _ K A B) as KA. pose proof (respects_regroup _ _ _ _ KA A1 B1) as KA1. rewrite <- (kin_irr _ _ KA1) in Eq. set (o := filter_irreps _ _ _ _) in *. destruct o as [o|]; [|discriminate]. cbn [bind] in *. destruct (validate_inputs _ _ _ _ _) in Er; [|discriminate]. destruct (validate_inputs _ _ _ _ _) in Eq; [|discriminate]. cbn [bind] in *.
  rewrite <- (kin_irr _ _ KA1) in Eq. destruct (functional_linear _ _ _ _ _ _) as [L'|] eqn:EL'; [|discriminate]. cbn [bind] in *. unfold module_layer in *. cbn [M default_linear m_per_channel negb assert bind] in *. unfold linear_vanilla in *.
  destruct (linear_call L' _ a1) as [u|] eqn:U; [|discriminate]. destruct (linear_call L' _ b1) as [v|] eqn:W; [|discriminate]. cbn [bind] in *. injection Er as <-. injection Eq as <-.
  destruct (constructor_shape _ _ _ _ _ _ _ EL') as (bs & _ & Ex & _). apply (linear_call_same L' _ _ a1 b1 u v eq_refl KA1 ltac:(now rewrite Ex) U W).
Qed.
