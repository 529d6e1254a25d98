(* Proofs about ActivationModel.v: scalar_activation computes the chunkwise map of the activation functions and commutes with the group action. *)
From Coq Require Import Reals Lra.
From Verif Require Import PyBase PermModel PermProofs IrrepsModel IrrepsProofs IrrepsProofs2 ArrayModel ArrayProofs ArrayOps RechunkProofs SliceProofs SliceProofs2 ArithProofs LeadModel LeadProofs BlockProofs AxisProofs StackProofs BilinProofs ActProofs EquivProofs EquivProofs2 LinearProofs RotationModel TPModel ActivationModel.
Open Scope nat_scope.

(* ---------- specification vocabulary ---------- *)
(* the parity of an activated scalar: even scalars stay even, odd scalars get the measured parity of the function *)
Definition out_entry (pts : list R) (norm : bool) (m : mulirrep) (a : option pyfun) : mulirrep :=
  match a with
  | None => m
  | Some f => (fst m, Irrep 0 (match ir_p (snd m) with Even => Even | Odd => if (parity_function (activate pts norm f) =? 1)%Z then Even else Odd end))
  end.
(* one block of the output row *)
Definition out_block (pts : list R) (norm : bool) (a : option pyfun) (b : list R) : list R :=
  match a with None => b | Some f => map (activate pts norm f) b end.
(* an activation is applied to scalars only, and to odd scalars only when it has a measured parity *)
Definition admissible (pts : list R) (norm : bool) (m : mulirrep) (a : option pyfun) : Prop :=
  match a with None => True | Some f => ir_l (snd m) = 0 /\ (ir_p (snd m) = Odd -> parity_function (activate pts norm f) <> 0%Z) end.
(* known zero chunks are only activated by functions that vanish at 0 *)
Definition zeros_stay (pts : list R) (norm : bool) (z : bool) (a : option pyfun) : Prop :=
  match a with None => True | Some f => z = true -> activate pts norm f 0%R = 0%R end.
(* Python objects that are identical compute the same function *)
Definition by_identity (acts : list (option pyfun)) : Prop := forall f g, In (Some f) acts -> In (Some g) acts -> f_id f = f_id g -> f_ap f = f_ap g.
Definition the_acts (acts : option (list (option pyfun))) (even odd : pyfun) (x : irreps) : list (option pyfun) :=
  match acts with Some l => l | None => default_acts even odd x end.

Lemma is_zero_0 g : g 0%R = 0%R -> is_zero_in_zero g = true.
Proof. intros E. unfold is_zero_in_zero, allclose, Rleb. rewrite E. destruct (Rle_dec _ _) as [|N]; [reflexivity|]. exfalso. apply N. rewrite Rminus_0_r, Rabs_R0. lra. Qed.

Lemma act_entry_ok pts norm s m c a : wf_opt s m c -> admissible pts norm m a -> zeros_stay pts norm (is_none c) a ->
  exists c', act_entry pts norm s m c a = Ok (out_entry pts norm m a, c') /\ wf_opt s (out_entry pts norm m a) c' /\ is_none c' = is_none c /\
    forall i, valid s i -> den (out_entry pts norm m a) c' i = out_block pts norm a (den m c i).
Proof.
  intros W A Z. destruct m as [n ir]. destruct a as [f|]; [|exists c; repeat split; assumption]. destruct A as (A1 & A2). unfold act_entry. cbn [fst snd] in *. rewrite A1. cbn [Nat.eqb negb].
  set (g := activate pts norm f) in *. set (p := match ir_p ir with Odd => parity_function g | Even => 1%Z end).
  assert (Hp : (p =? 0)%Z = false). { subst p. apply Z.eqb_neq. destruct (ir_p ir); [lia|auto]. } rewrite Hp.
  assert (Eo : out_entry pts norm (n, ir) (Some f) = (n, Irrep 0 (if (p =? 1)%Z then Even else Odd))). { unfold out_entry. cbn [fst snd]. fold g. subst p. destruct (ir_p ir); reflexivity. } rewrite Eo.
  assert (D1 : ir_dim ir = 1) by (unfold ir_dim; lia).
  destruct c as [c|].
  - eexists. split; [reflexivity|]. destruct W as (W1 & W2 & W3 & W4). cbn [fst snd] in *. split; [|split].
    + cbn [wf_opt]. repeat split; cbn [c_lead c_mul c_dim c_val fst snd]; auto; try congruence.
      * rewrite W3, D1. reflexivity.
      * rewrite map_length. apply W4. assumption.
      * apply Forall_map. eapply Forall_impl; [|apply W4; eassumption]. intros r Hr. cbv beta. rewrite map_length, Hr. exact D1.
    + reflexivity.
    + intros i Hi. cbn [den out_block c_val]. fold g. symmetry. apply concat_map.
  - cbn [is_none] in Z. cbn [zeros_stay] in Z. specialize (Z eq_refl). fold g in Z. rewrite is_zero_0 by exact Z. eexists. split; [reflexivity|]. split; [exact I|]. split; [reflexivity|].
    intros i Hi. cbn [den out_block]. fold g. symmetry. replace (mi_dim (n, ir)) with n by (unfold mi_dim; cbn [fst snd]; rewrite D1; lia). replace (mi_dim (n, Irrep 0 _)) with n by (unfold mi_dim; cbn [fst snd ir_dim ir_l]; unfold ir_dim; cbn [ir_l]; lia). apply map_zero_row, Z.
Qed.

Lemma act_entries_ok pts norm s : forall x cs acts, Forall2 (wf_opt s) x cs -> Forall2 (admissible pts norm) x acts -> Forall2 (zeros_stay pts norm) (map is_none cs) acts ->
  exists cs', mapM (fun '((m, c), a) => act_entry pts norm s m c a) (combine (combine x cs) acts) = Ok (combine (map2 (out_entry pts norm) x acts) cs') /\ Forall2 (wf_opt s) (map2 (out_entry pts norm) x acts) cs' /\ map is_none cs' = map is_none cs /\
    forall i, valid s i -> chunks_row (map2 (out_entry pts norm) x acts) cs' i = concat (map2 (out_block pts norm) acts (map (fun '(m, c) => den m c i) (combine x cs))).
Proof.
  intros x cs acts W. revert acts. induction W as [|m c x cs W0 W IH]; intros acts A Z; inversion A; subst.
  - exists []. split; [reflexivity|]. split; [constructor|]. split; reflexivity.
  - rename y into a. rename l' into acts'. cbn [map] in Z. inversion Z; subst. destruct (IH acts' H3 H6) as (cs' & E & W' & F & V). destruct (act_entry_ok pts norm s m c a W0 H1 H4) as (c' & E0 & W0' & F0 & V0).
    exists (c' :: cs'). rewrite map2_cons. split; [|split; [|split]].
    + cbn [combine mapM]. rewrite E0. cbn [bind]. rewrite E. reflexivity.
    + constructor; assumption.
    + cbn [map]. congruence.
    + intros i Hi. unfold chunks_row in *. cbn [combine flat_map map]. rewrite map2_cons. cbn [concat]. rewrite V0, V by exact Hi. reflexivity.
Qed.

Lemma same_fun_spec a b : same_fun a b = true -> (a = None /\ b = None) \/ exists f g, a = Some f /\ b = Some g /\ f_id f = f_id g.
Proof. destruct a as [f|], b as [g|]; cbn; intros E; try discriminate; [right|left]; auto. exists f, g. apply Nat.eqb_eq in E. auto. Qed.

Lemma activate_ap pts norm f g : f_ap f = f_ap g -> activate pts norm f = activate pts norm g.
Proof. unfold activate. intros ->. reflexivity. Qed.

Lemma map2_all {A B C} (f : A -> B -> C) h l l' : length l = length l' -> (forall a, In a l -> f a = h) -> map2 f l l' = map h l'.
Proof.
  revert l'. induction l as [|a l IH]; intros [|b l'] L E; try discriminate; [reflexivity|]. rewrite map2_cons. cbn [map]. rewrite (E a) by (left; reflexivity). f_equal. apply IH; [cbn in L; lia|]. intros; apply E; right; assumption.
Qed.

Lemma scalar_activation_yields pts acts even odd norm x : coherent x -> Forall2 (admissible pts norm) (irr x) (the_acts acts even odd (irr x)) ->
  Forall2 (zeros_stay pts norm) (zero_flags x) (the_acts acts even odd (irr x)) -> by_identity (the_acts acts even odd (irr x)) ->
  yields (scalar_activation pts acts even odd norm x) (map2 (out_entry pts norm) (irr x) (the_acts acts even odd (irr x))) (lead x)
    (fun i => concat (map2 (out_block pts norm) (the_acts acts even odd (irr x)) (blocks (irr x) (arr x i)))).
Proof.
  intros H A Z B. unfold scalar_activation. fold (the_acts acts even odd (irr x)). set (l := the_acts acts even odd (irr x)) in *.
  rewrite (Forall2_length _ _ _ A), Nat.eqb_refl. cbn [negb].
  rewrite (chunks_flags x H) in Z. destruct (act_entries_ok pts norm (lead x) (irr x) (chunks x) l (chunks_wf x H) A Z) as (cs' & E & W & F & V).
  rewrite E. cbn [bind]. set (out := map2 (out_entry pts norm) (irr x) l) in *.
  assert (Lo : length out = length cs') by apply (Forall2_length _ _ _ W).
  rewrite (combine_map_fst out cs') by exact Lo. rewrite (combine_map_snd out cs') by exact Lo.
  assert (V' : forall i, valid (lead x) i -> chunks_row out cs' i = concat (map2 (out_block pts norm) l (blocks (irr x) (arr x i)))).
  { intros i Hi. rewrite (chunks_blocks x H i Hi). apply V, Hi. }
  assert (Y : yields (from_chunks out cs' (lead x) true) out (lead x) (fun i => concat (map2 (out_block pts norm) l (blocks (irr x) (arr x i))))).
  { destruct (from_chunks_ok out cs' (lead x) true W (or_introl eq_refl)) as (y & E1 & E2 & E3 & E4 & E5 & _). exists y. split; [exact E1|]. split; [exact E2|]. split; [exact E3|]. split; [exact E4|]. intros i Hi. rewrite E5, V' by exact Hi. reflexivity. }
  assert (Ll : length l = length (irr x)) by (symmetry; apply (Forall2_length _ _ _ A)).
  assert (Eu : forall a0 l', l = a0 :: l' -> forallb (same_fun a0) l = true -> forall i, valid (lead x) i -> concat (map2 (out_block pts norm) l (blocks (irr x) (arr x i))) = match a0 with None => arr x i | Some f => map (activate pts norm f) (arr x i) end).
  { intros a0 l' El Es i Hi. rewrite forallb_forall in Es. assert (Ha : forall a, In a l -> out_block pts norm a = match a0 with None => fun b => b | Some f => map (activate pts norm f) end).
    { intros a Hin. destruct (same_fun_spec _ _ (Es a Hin)) as [(-> & ->)|(f & g & -> & -> & Ef)]; [reflexivity|]. rewrite (activate_ap pts norm f g); [reflexivity|]. apply B; auto. rewrite El. left. reflexivity. }
    rewrite (map2_all _ _ l (blocks (irr x) (arr x i)) (eq_trans Ll (eq_sym (blocks_length _ _))) Ha). pose proof (concat_blocks (irr x) (arr x i) (proj1 H i Hi)) as C.
    destruct a0 as [f|]; [rewrite <- concat_map; f_equal; exact C|rewrite map_id; exact C]. }
  assert (Do : dim out = dim (irr x)).
  { clear - A. subst out. revert A. generalize (irr x) l. intros z l0 A. induction A as [|m a z l0 Ha A IH]; [reflexivity|]. rewrite map2_cons, !dim_cons, IH. f_equal. destruct a as [f|]; [|reflexivity]. destruct m as [n ir]. destruct Ha as (Ha & _). cbn [fst snd] in Ha. unfold out_entry, mi_dim, ir_dim. cbn [fst snd ir_l]. rewrite Ha. reflexivity. }
  destruct l as [|a0 l'] eqn:El; [exact Y|]. destruct (forallb (same_fun a0) (a0 :: l')) eqn:Es; [|exact Y].
  eapply yields_ext; [intros i Hi; symmetry; apply (Eu a0 l' eq_refl Es i Hi)|].
  rewrite <- Do. replace (match a0 with None => arr x | Some f => fun i => map (activate pts norm f) (arr x i) end) with (fun i => match a0 with None => arr x i | Some f => map (activate pts norm f) (arr x i) end) by (destruct a0; reflexivity).
  change (fun c : option chunk => match c with None => true | Some _ => false end) with (@is_none chunk).
  apply build_yields; [| |exact I].
  - intros i Hi. rewrite Do. destruct a0; [rewrite map_length|]; apply H, Hi.
  - eapply flags_ok_ext; [|apply (chunks_row_flags _ _ _ W)]. intros i Hi. rewrite V' by exact Hi. apply (Eu a0 l'); auto.
Qed.

(* ---------- the group action ---------- *)
(* the two scalar representations are signs, "0e" the trivial one *)
Definition scalar_signs (D : rep) : Prop := scalar_trivial D /\ (D (Irrep 0 Odd) = [[1%R]] \/ D (Irrep 0 Odd) = [[(-1)%R]]).
Definition sign_of (D : rep) (p : parity) : R := match p with Even => 1%R | Odd => nth 0 (nth 0 (D (Irrep 0 Odd)) []) 0%R end.
(* the measured parity of a function is its parity *)
Definition honest (g : R -> R) : Prop := (parity_function g = 1%Z -> forall t, g (- t)%R = g t) /\ (parity_function g = (-1)%Z -> forall t, g (- t)%R = (- g t)%R).

Lemma sign_cases D p : scalar_signs D -> D (Irrep 0 p) = [[sign_of D p]] /\ (sign_of D p = 1%R \/ (p = Odd /\ sign_of D p = (-1)%R)).
Proof. intros (S1 & S2). destruct p; cbn [sign_of]; [split; [exact S1|left; reflexivity]|]. destruct S2 as [E|E]; rewrite E; cbn [nth]; auto. Qed.
Lemma act1_scalar D n p b : scalar_signs D -> length b = n -> act1 D (n, Irrep 0 p) b = map (fun t => sign_of D p * t)%R b.
Proof.
  intros S L. rewrite act1_rows. change (ir_dim (Irrep 0 p)) with 1. destruct (sign_cases D p S) as (E & _). revert b L. induction n as [|n IH]; intros b L; [destruct b; [reflexivity|discriminate]|].
  destruct b as [|t b]; [discriminate|]. rewrite group_rows_S. cbn [firstn skipn map concat]. rewrite IH by (cbn in L; lia). unfold mv at 1. rewrite E. unfold matvec. cbn [map app]. f_equal. unfold dotR. cbn. ring.
Qed.
Lemma parity_range g : parity_function g = 1%Z \/ parity_function g = (-1)%Z \/ parity_function g = 0%Z.
Proof. unfold parity_function. destruct (forallb _ _); [auto|]. destruct (forallb _ _); auto. Qed.
Lemma out_block_act pts norm D m a b : scalar_signs D -> admissible pts norm m a -> (forall f, a = Some f -> ir_p (snd m) = Odd -> honest (activate pts norm f)) -> length b = mi_dim m ->
  act1 D (out_entry pts norm m a) (out_block pts norm a b) = out_block pts norm a (act1 D m b).
Proof.
  intros S A P L. destruct a as [f|]; [|reflexivity]. destruct m as [n [l p]]. destruct A as (A1 & A2). cbn [fst snd ir_l ir_p] in *. subst l. cbn [out_entry out_block fst snd ir_p].
  replace (mi_dim (n, Irrep 0 p)) with n in L by (unfold mi_dim; cbn [fst snd]; unfold ir_dim; cbn [ir_l]; lia). rewrite !act1_scalar by (try assumption; rewrite map_length; exact L). rewrite !map_map. apply map_ext. intros t. set (g := activate pts norm f) in *.
  destruct p; [cbn [sign_of]; rewrite !Rmult_1_l; reflexivity|]. specialize (A2 eq_refl). specialize (P f eq_refl eq_refl). fold g in P. destruct P as (P1 & P2). destruct (sign_cases D Odd S) as (_ & Hs). destruct (parity_range g) as [E|[E|E]]; [| |contradiction]; rewrite E; cbn [Z.eqb Pos.eqb].
  - change (sign_of D Even) with 1%R. destruct Hs as [->|(_ & ->)]; [rewrite !Rmult_1_l; reflexivity|]. replace (-1 * t)%R with (- t)%R by ring. rewrite P1 by exact E. ring.
  - destruct Hs as [->|(_ & ->)]; [rewrite !Rmult_1_l; reflexivity|]. replace (-1 * t)%R with (- t)%R by ring. rewrite P2 by exact E. ring.
Qed.
Lemma map2_map2_r {A B C E} (f : A -> C -> E) (g : A -> B -> C) : forall l l', length l = length l' -> map2 f l (map2 g l l') = map2 (fun a b => f a (g a b)) l l'.
Proof. induction l as [|a l IH]; intros [|b l'] L; try discriminate; [reflexivity|]. rewrite !map2_cons, IH by (cbn in L; lia). reflexivity. Qed.

Lemma scalar_activation_commutes pts acts even odd norm D x : rep_ok D -> scalar_signs D -> coherent x -> Forall2 (admissible pts norm) (irr x) (the_acts acts even odd (irr x)) ->
  Forall2 (zeros_stay pts norm) (zero_flags x) (the_acts acts even odd (irr x)) -> by_identity (the_acts acts even odd (irr x)) ->
  Forall2 (fun m a => forall f, a = Some f -> ir_p (snd m) = Odd -> honest (activate pts norm f)) (irr x) (the_acts acts even odd (irr x)) ->
  agree (let! y := scalar_activation pts acts even odd norm x in transform D y) (let! y := transform D x in scalar_activation pts acts even odd norm y).
Proof.
  intros HD S H A Z B P. set (l := the_acts acts even odd (irr x)) in *.
  apply (commute D (scalar_activation pts acts even odd norm) x (map2 (out_entry pts norm) (irr x) l) (lead x) (fun a i => concat (map2 (out_block pts norm) l (blocks (irr x) (a i))))); auto.
  - intros y Hy E1 E2 E3. rewrite <- E1, <- E2. subst l. rewrite <- E1 in *. apply scalar_activation_yields; auto. rewrite E3. exact Z.
  - trivial_ext.
  - intros a i Hi La. specialize (La i Hi). rewrite act_concat.
    + rewrite blocks_act by exact HD. f_equal. pose proof (blocks_widths (irr x) (a i) La) as W. revert A P W. generalize (irr x) l (blocks (irr x) (a i)). clear - S. intros z l bs A. revert bs. induction A as [|m a z l A0 A IH]; intros bs P W; inversion W; subst; [reflexivity|].
      inversion P; subst. rewrite !map2_cons. rewrite IH by assumption. f_equal. apply out_block_act; assumption.
    + pose proof (blocks_widths (irr x) (a i) La) as W. revert A W. generalize (irr x) l (blocks (irr x) (a i)). clear. intros z l bs A. revert bs. induction A as [|m a z l A0 A IH]; intros bs W; inversion W; subst; [constructor|].
      rewrite !map2_cons. constructor; [|apply IH; assumption]. destruct a as [f|]; [|assumption]. destruct m as [n [k p]]. destruct A0 as (A0 & _). cbn [snd ir_l] in A0. subst k. cbn [out_block]. rewrite map_length. unfold mi_dim in *. exact H1.
Qed.
