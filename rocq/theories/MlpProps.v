(* C62: MultiLayerPerceptron (haiku and flax). *)
From Coq Require Import Reals Lra Lia List Arith Bool String.
From Verif Require Import PyBase PermModel PermProofs IrrepsModel IrrepsProofs IrrepsProofs2 ArrayModel ArrayProofs ArrayOps RechunkProofs ArithProofs LeadModel LeadProofs BlockProofs BilinProofs ActProofs EquivProofs SumR ActivationModel NormModel LinearModel LinearProofs LinearProps TPProps3 GradProofs LinModProofs TPProofs TPProofs2 EntryProofs.
From Verif Require Import RotationModel WignerModel WignerProofs WignerProofs2 MlpModel.
Import ListNotations.
Open Scope nat_scope.

(* ---- specification: a run of the network on one row ---- *)
(* the activation after layer k of n: the output activation after the last one, the hidden activation elsewhere; both divided by their second moment
   (normalize_function, C41) *)
Definition activation_of (pts : list R) (M : mlp) (k n : nat) : R -> R :=
  match (if S k =? n then output_activation M else m_act M) with Some f => normalize_function pts f | None => fun t => t end.
(* h 0, h 1, ... are the values of the neurons: unit j of layer k is  act (N^(-gn/2) * (sum_q h_k[q] w_k[q, j] + b_k[j]))  with N = len h_k *)
Definition network_run (pts : list R) (M : mlp) (P : mlp_params) (gn : R) (h : nat -> list R) : Prop :=
  forall k n, nth_error (list_neurons M) k = Some n -> length (h (S k)) = n /\ forall j, j < n ->
    nth j (h (S k)) 0%R = activation_of pts M k (length (list_neurons M))
      (Rpower (INR (length (h k))) (- gn / 2) * (rsum (length (h k)) (fun q => nth q (h k) 0 * fst (P k) q j) + (if m_with_bias M then snd (P k) j else 0)))%R.
(* every layer has an input: the constraint the forward pass puts on the sizes *)
Definition inputs_nonempty (w : nat) (l : list nat) : Prop := l <> [] -> Forall (fun n => n <> 0) (w :: removelast l).

(* ---- proofs ---- *)
Definition layer_row (gn : R) (bias : bool) (f : option (R -> R)) p (w h : nat) (row : list R) : list R := apply_act f (map (Rmult (Rpower (sqrt (1 / INR w)) gn)) (dense bias w h p row)).
Fixpoint mlp_row (gn : R) (bias : bool) (act last_act : option (R -> R)) (P : mlp_params) (i : nat) (l : list nat) (w : nat) (row : list R) : list R :=
  match l with
  | [] => row
  | h :: l' => mlp_row gn bias act last_act P (S i) l' h (layer_row gn bias (match l' with [] => last_act | _ => act end) (P i) w h row)
  end.
Lemma last_of_cons (l : list nat) h w : last (h :: l) w = last l h.
Proof. revert h w. induction l as [|a l IH]; intros h w; [reflexivity|]. change (last (h :: a :: l) w) with (last (a :: l) w). now rewrite !IH. Qed.
Lemma inputs_tail w h l : inputs_nonempty w (h :: l) -> inputs_nonempty h l.
Proof. intros H N. specialize (H ltac:(discriminate)). inversion H as [|? ? H1 H2]; subst. destruct l as [|a l]; [contradiction|]. exact H2. Qed.
Lemma layers_rows gn bias act la P : forall l i w (a : idx -> list R), inputs_nonempty w l -> mlp_layers gn bias act la P i l w a = Ok (last l w, fun k => mlp_row gn bias act la P i l w (a k)).
Proof.
  induction l as [|h l IH]; intros i w a H; [reflexivity|]. cbn [mlp_layers]. assert (w <> 0) as N by (specialize (H ltac:(discriminate)); inversion H; subst; assumption). apply Nat.eqb_neq in N. rewrite N. cbv zeta.
  rewrite IH by (eapply inputs_tail, H). rewrite last_of_cons. cbn [mlp_row]. destruct l; reflexivity.
Qed.
Lemma layer_row_length gn bias f p w h row : length (layer_row gn bias f p w h row) = h.
Proof. unfold layer_row, apply_act, dense. destruct f; now rewrite !map_length, seq_length. Qed.
Lemma mlp_row_length gn bias act la P : forall l i w row, length row = w -> length (mlp_row gn bias act la P i l w row) = last l w.
Proof. induction l as [|h l IH]; intros i w row E; [exact E|]. cbn [mlp_row]. rewrite last_of_cons. apply IH, layer_row_length. Qed.
Lemma power_spec w gn : w <> 0 -> Rpower (sqrt (1 / INR w)) gn = Rpower (INR w) (- gn / 2).
Proof.
  intros N. assert (P : (0 < INR w)%R) by (apply lt_0_INR; lia). unfold Rdiv. rewrite Rmult_1_l. rewrite sqrt_Rinv_compat || idtac.
  rewrite <- Rpower_sqrt by now apply Rinv_0_lt_compat. unfold Rpower. rewrite !ln_exp, ln_Rinv by exact P. f_equal. field.
Qed.
Lemma layer_value gn bias f p w h row j : w <> 0 -> j < h -> nth j (layer_row gn bias f p w h row) 0%R = (match f with Some f => f | None => fun t => t end) (Rpower (INR w) (- gn / 2) * (rsum w (fun q => nth q row 0 * fst p q j) + (if bias then snd p j else 0)))%R.
Proof.
  intros N Hj. unfold layer_row, apply_act, dense. rewrite power_spec by exact N. destruct f as [f|]; rewrite ?map_map, (nth_map_at _ _ _ 0) by (rewrite seq_length; exact Hj); rewrite seq_nth by exact Hj; reflexivity.
Qed.
(* the values of the neurons, layer by layer *)
Fixpoint trace (gn : R) (bias : bool) (act la : option (R -> R)) (P : mlp_params) (i : nat) (l : list nat) (w : nat) (row : list R) (k : nat) : list R :=
  match k, l with
  | S k, h :: l' => trace gn bias act la P (S i) l' h (layer_row gn bias (match l' with [] => la | _ => act end) (P i) w h row) k
  | _, _ => row
  end.
Lemma trace_end gn bias act la P : forall l i w row, trace gn bias act la P i l w row (length l) = mlp_row gn bias act la P i l w row.
Proof. induction l as [|h l IH]; intros i w row; [reflexivity|]. cbn [length trace mlp_row]. apply IH. Qed.
Lemma trace_step gn bias act la P : forall l i w row k n, inputs_nonempty w l -> length row = w -> nth_error l k = Some n ->
  length (trace gn bias act la P i l w row (S k)) = n /\ forall j, j < n -> let h := trace gn bias act la P i l w row in
    nth j (h (S k)) 0%R = (match (if S k =? length l then la else act) with Some f => f | None => fun t => t end)
      (Rpower (INR (length (h k))) (- gn / 2) * (rsum (length (h k)) (fun q => nth q (h k) 0 * fst (P (i + k)%nat) q j) + (if bias then snd (P (i + k)%nat) j else 0)))%R.
Proof.
  induction l as [|h0 l IH]; intros i w row k n H E Hk; [destruct k; discriminate|]. assert (N : w <> 0) by (specialize (H ltac:(discriminate)); inversion H; subst; assumption). destruct k as [|k]; cbn [nth_error] in Hk.
  - injection Hk as ->. cbv zeta. assert (T1 : trace gn bias act la P i (n :: l) w row 1 = layer_row gn bias (match l with [] => la | _ => act end) (P i) w n row) by (cbn [trace]; destruct l; reflexivity). assert (T0 : trace gn bias act la P i (n :: l) w row 0 = row) by reflexivity.
    rewrite T1, T0, layer_row_length. split; [reflexivity|]. intros j Hj. rewrite layer_value by assumption. rewrite E, Nat.add_0_r. destruct l; reflexivity.
  - specialize (IH (S i) h0 (layer_row gn bias (match l with [] => la | _ => act end) (P i) w h0 row) k n (inputs_tail _ _ _ H) (layer_row_length _ _ _ _ _ _ _) Hk). cbn [trace length]. replace (i + S k) with (S i + k) by lia. exact IH.
Qed.

(* ---- C62 ---- *)
(* On a bare array: the leading shape is kept, the last axis gets the size of the last layer, and every row is mapped by one function, which runs the
   network on that row. *)
Theorem C62_value conf pts M P w gn : gradient_number conf (m_gradient M) = Ok gn -> inputs_nonempty w (list_neurons M) ->
  exists f : list R -> list R,
    (forall s a, mlp_call conf pts M P (MBare s w a) = Ok (MBare s (last (list_neurons M) w) (fun i => f (a i)))) /\
    forall row, length row = w -> length (f row) = last (list_neurons M) w /\ exists h, h 0 = row /\ h (length (list_neurons M)) = f row /\ network_run pts M P gn h.
Proof.
  intros G H. set (act := option_map (normalize_function pts) (m_act M)). set (la := option_map (normalize_function pts) (output_activation M)).
  exists (mlp_row gn (m_with_bias M) act la P 0 (list_neurons M) w). split.
  - intros s a. unfold mlp_call. rewrite G. cbn [bind]. fold act la. rewrite layers_rows by exact H. reflexivity.
  - intros row E. split; [now apply mlp_row_length|]. exists (trace gn (m_with_bias M) act la P 0 (list_neurons M) w row). split; [destruct (list_neurons M); reflexivity|]. split; [apply trace_end|].
    intros k n Hk. destruct (trace_step gn (m_with_bias M) act la P (list_neurons M) 0 w row k n H E Hk) as [L V]. split; [exact L|]. intros j Hj. cbv zeta in V. rewrite V by exact Hj. unfold activation_of, act, la. destruct (S k =? _); [destruct (output_activation M)|destruct (m_act M)]; reflexivity.
Qed.
(* the run determines its end: the two facts of C62_value pin the function down *)
Theorem C62_run_unique pts M P gn h h' : network_run pts M P gn h -> network_run pts M P gn h' -> h 0 = h' 0 -> h (length (list_neurons M)) = h' (length (list_neurons M)).
Proof.
  intros H H' E0. assert (G : forall k, k <= length (list_neurons M) -> h k = h' k); [|now apply G]. induction k as [|k IH]; intros Hk; [exact E0|].
  destruct (nth_error (list_neurons M) k) as [n|] eqn:En; [|apply nth_error_None in En; lia]. destruct (H k n En) as [L V], (H' k n En) as [L' V']. apply (nth_ext _ _ 0%R 0%R); [congruence|]. intros j Hj. rewrite L in Hj. rewrite V, V', IH by (auto; lia). reflexivity.
Qed.
Lemma scalar_dim_act D x row : scalar_trivial D -> rep_ok D -> is_scalar x = true -> length row = dim x -> act D x row = row.
Proof.
  intros HS HD H L. unfold is_scalar in H. apply andb_prop in H as [H _]. unfold act. rewrite dim_flat in L. assert (F : Forall (fun ir => ir = Irrep 0 Even) (flat x)).
  { apply Forall_forall. intros ir Hi. unfold flat in Hi. apply in_flat_map in Hi as ([m a] & Hm & Hr). apply repeat_spec in Hr as ->. rewrite forallb_forall in H. specialize (H _ Hm). now apply irrep_eqb_eq in H. }
  revert F row L. generalize (flat x). clear H x. induction l as [|ir l IH]; intros F row L; [destruct row; [reflexivity|discriminate]|]. inversion F as [|? ? E F']; subst ir. destruct row as [|t row]; [discriminate|].
  unfold scalar_trivial in HS. cbn [acts]. change (ir_dim (Irrep 0 Even)) with 1. cbn [firstn skipn]. rewrite IH; [|exact F'|cbn [length map] in L; change (sum (ir_dim (Irrep 0 Even) :: map ir_dim l)) with (S (sum (map ir_dim l))) in L; lia]. rewrite HS. cbn. f_equal. unfold dotR, zipR. cbn. ring.
Qed.
(* On an IrrepsArray: it must be made of 0e only; the result is a batch of last-layer-size 0e with the same function of each row. *)
Theorem C62_irreps conf pts M P x gn : gradient_number conf (m_gradient M) = Ok gn -> coherent x -> is_scalar (irr x) = true -> inputs_nonempty (dim (irr x)) (list_neurons M) ->
  exists y b, mlp_call conf pts M P (MIrreps x) = Ok (MIrreps y) /\ coherent y /\ irr y = [(last (list_neurons M) (dim (irr x)), Irrep 0 Even)] /\ lead y = lead x /\
    mlp_call conf pts M P (MBare (lead x) (dim (irr x)) (arr x)) = Ok (MBare (lead x) (last (list_neurons M) (dim (irr x))) b) /\ forall i, arr y i = b i.
Proof.
  intros G Cx Sc H. unfold mlp_call. rewrite G, Sc. cbn [bind negb]. rewrite layers_rows by exact H. cbn [bind fst snd]. set (a := fun k => mlp_row _ _ _ _ _ _ _ _ (arr x k)). set (n := last (list_neurons M) (dim (irr x))).
  assert (D : dim [(n, Irrep 0 Even)] = n) by (cbn; lia). exists (IA [(n, Irrep 0 Even)] (lead x) a None None), a. unfold mkIA. rewrite D, Nat.eqb_refl. cbn [negb bind irr lead arr]. split; [reflexivity|]. split; [|auto].
  apply (fresh_chunks [(n, Irrep 0 Even)] (lead x) a). intros i Hi. rewrite D. unfold a. apply mlp_row_length, Cx, Hi.
Qed.
Theorem C62_rejects conf pts M P x gn : gradient_number conf (m_gradient M) = Ok gn -> (irr x = [] \/ exists m, In m (irr x) /\ snd m <> Irrep 0 Even) -> mlp_call conf pts M P (MIrreps x) = Err ValueError.
Proof.
  intros G H. unfold mlp_call. rewrite G. cbn [bind]. replace (is_scalar (irr x)) with false; [reflexivity|]. symmetry. unfold is_scalar. apply andb_false_iff. destruct H as [-> |(m & Hm & N)]; [now right|]. left. apply not_true_is_false. intros F. rewrite forallb_forall in F. specialize (F m Hm). now apply irrep_eqb_eq in F.
Qed.
(* a rotation of the input changes nothing *)
Theorem C62_invariant conf pts M P x r gn : orthogonal3 r -> gradient_number conf (m_gradient M) = Ok gn -> coherent x -> is_scalar (irr x) = true -> inputs_nonempty (dim (irr x)) (list_neurons M) ->
  exists x' y y', transform (rep_of r) x = Ok x' /\ mlp_call conf pts M P (MIrreps x) = Ok (MIrreps y) /\ mlp_call conf pts M P (MIrreps x') = Ok (MIrreps y') /\ irr y' = irr y /\ lead y' = lead y /\ forall i, valid (lead y) i -> arr y' i = arr y i.
Proof.
  intros Or G Cx Sc H. pose proof (as_rep_ok (D_from_matrix r) : rep_ok (rep_of r)) as HD. destruct (transform_act (rep_of r) x Cx HD) as (x' & E & I1 & L1 & C1 & A1).
  destruct (C62_irreps conf pts M P x gn G Cx Sc H) as (y & b & Ey & Cy & Iy & Ly & Eb & Ay). rewrite <- I1 in H, Sc. destruct (C62_irreps conf pts M P x' gn G C1 Sc H) as (y' & b' & Ey' & Cy' & Iy' & Ly' & Eb' & Ay').
  exists x', y, y'. split; [exact E|]. split; [exact Ey|]. split; [exact Ey'|]. rewrite Iy', Iy, Ly', Ly, I1, L1. split; [reflexivity|]. split; [reflexivity|]. intros i Hi. rewrite Ay, Ay'. rewrite I1 in *.
  destruct (C62_value conf pts M P (dim (irr x)) gn G H) as (f & Ef & _). rewrite Ef in Eb, Eb'. injection Eb as <-. injection Eb' as <-. f_equal. rewrite A1 by exact Hi. apply scalar_dim_act; [now apply rep_of_scalar|exact HD|exact Sc|apply Cx, Hi].
Qed.
(* a layer without inputs: 1 / x.shape[-1] fails *)
Theorem C62_no_inputs conf pts M P s a gn : gradient_number conf (m_gradient M) = Ok gn -> list_neurons M <> [] -> mlp_call conf pts M P (MBare s 0 a) = Err ZeroDivisionError.
Proof. intros G N. unfold mlp_call. rewrite G. cbn [bind]. destruct (list_neurons M); [contradiction|reflexivity]. Qed.
(* no layers: the input is returned, without any activation *)
Theorem C62_no_layers conf pts M P s w a gn : gradient_number conf (m_gradient M) = Ok gn -> list_neurons M = [] -> mlp_call conf pts M P (MBare s w a) = Ok (MBare s w a).
Proof. intros G E. unfold mlp_call. rewrite G, E. reflexivity. Qed.
(* gradient_normalization: a number, "element" (0), "path" (1), or the configured value; the default configuration says "path" *)
Theorem C62_gradient conf : gradient_number conf (Some (VStr "element")) = Ok 0%R /\ gradient_number conf (Some (VStr "path")) = Ok 1%R /\ (forall r, gradient_number conf (Some (VFloat r)) = Ok r) /\
  (forall v, lookup "gradient_normalization" conf = Some v -> gradient_number conf None = gradient_number conf (Some v)) /\ gradient_number default_conf None = Ok 1%R /\
  (forall s, s <> "element"%string -> s <> "path"%string -> gradient_number conf (Some (VStr s)) = Err KeyError).
Proof.
  split; [reflexivity|]. split; [reflexivity|]. split; [reflexivity|]. split; [intros v E; unfold gradient_number, config; now rewrite E|]. split; [reflexivity|]. intros s H1 H2. cbn. apply String.eqb_neq in H1, H2. now rewrite H1, H2.
Qed.
