(* C67: the padding "VALID". *)
From Coq Require Import Reals ZArith Arith Lia Lra Bool List Permutation.
From Verif Require Import PyBase IrrepsModel IrrepsProofs IrrepsProofs2 NormModel NormProofs ArrayModel ArrayProofs ArrayProps3 ArrayOps RechunkProofs LeadModel LeadProofs ArithProofs SumR CGModel ActProofs EquivProofs EquivProofs2 EntryProofs TPModel TPProofs LinearModel LinearProofs LinearProps BlockProofs LinModProofs ConvProps2 TransformerProps4.
From Verif Require Import LegacyModel LegacyProofs LegacyProofs2 RadialModel GradProofs RotationModel RotationProofs WignerModel WignerProofs WignerProofs2 WignerProps S2Model SHModel SHProps.
From Verif Require Import VconvModel VconvProofs VconvProofs2 VconvProofs3 VconvProofs4 VconvProps VconvProps2 VconvProps3.
Import ListNotations.
Open Scope R_scope.

(* the same layer with another padding: true is "SAME", false is "VALID" *)
Definition padded (same : bool) (C : vconv) : vconv := VC (v_out C) (v_sh C) (v_diameter C) (v_number C) (v_start C) (v_steps C) same (v_inorm C) (v_pn C) (v_gn C) (v_shnorm C) (v_auto C).
Definition side (C : vconv) (same : bool) (n axis : nat) : nat := if same then n else (n - 2 * reach C axis)%nat.
Lemma conv_row_length C K dout X Y Z a i : length (conv_row C K dout X Y Z a i) = dout.
Proof.
  unfold conv_row. apply rowsum_length. apply Forall_forall. intros r H. apply in_flat_map in H as (u & _ & H). apply in_flat_map in H as (v & _ & H). apply in_flat_map in H as (w & _ & H).
  destruct (_ && _); [|destruct H]. destruct H as [<-|[]]. apply tab_length.
Qed.
Lemma call_raw C P steps q T L M a B X Y Z : coherent a -> lead a = [B; X; Y; Z] -> fct C (read_irreps a) (kept_out C (read_irreps a)) T -> sh_good C q -> length (p_tp P) = length (tp_ins T) ->
  functional_linear (read_irreps a) (kept_out C (read_irreps a)) None NoBias (v_pn C) (v_gn C) = Ok L -> linear_matrix L (p_self P) = Ok M ->
  exists K a2, forall s, yields (vconv_call (padded s C) P a steps) (v_out C) [B; side C s X 0; side C s Y 1; side C s Z 2]%nat (fun i => filled C (read_irreps a) (conv_row (padded s C) K (dim (kept_out C (read_irreps a))) X Y Z a2 i)).
Proof.
  intros Ca La F G LP EL EM. destruct (remove_zero_chunks_yields a Ca) as (a1 & E1 & I1 & L1 & C1 & A1). rewrite La in *. destruct (ia_simplify_yields a1 C1) as (a2 & E2 & I2 & L2 & C2 & A2). rewrite I1, L1 in *.
  change (simplify (select (map negb (zero_flags a)) (irr a))) with (read_irreps a) in I2. set (x := read_irreps a) in *. set (y := kept_out C x) in *.
  destruct (kernel_run C P x y steps q T L M F G LP EL EM) as (K & EK & _). exists K, a2. intros s. unfold vconv_call. rewrite E1. cbn [bind]. rewrite E2. cbn [bind]. cbv zeta. rewrite I2, L2. change (kept_out (padded s C) x) with y. change (kernel (padded s C) P x y steps) with (kernel C P x y steps). rewrite EK. cbn [bind].
  change (fun axis n : nat => if v_same (padded s C) then n else (n - 2 * reach (padded s C) axis)%nat) with (fun axis n : nat => side C s n axis).
  rewrite mkIA_ok by auto. cbn [bind].
  match goal with |- context [IA y ?l ?f None None] => set (o := IA y l f None None) end. assert (Co : coherent o) by (apply (fresh_chunks y); intros; apply conv_row_length).
  change (v_out (padded s C)) with (v_out C). destruct (irreps_eqb y (v_out C)) eqn:Ey.
  - apply irreps_eqb_eq in Ey. exists o. split; [reflexivity|]. split; [exact Ey|]. split; [reflexivity|]. split; [exact Co|]. intros i Hi. cbn [o arr]. unfold filled. symmetry. apply place_row_all; [exact Ey|]. rewrite conv_row_length. now rewrite Ey.
  - pose proof (chunks_wf o Co) as W. cbn [o irr lead] in W. destruct (place_chunks_spec (fun m => reachable C x (snd m)) (lead o) (v_out C) (chunks o) W) as [W' R']. change (filter (fun m => reachable C x (snd m)) (v_out C)) with y in W', R'.
    destruct (from_chunks_ok (v_out C) (place_chunks (v_out C) y (chunks o)) (lead o) true W' (or_introl eq_refl)) as (z & Ez & Iz & Lz & Cz & Az & _). exists z. split; [exact Ez|]. split; [exact Iz|]. split; [exact Lz|]. split; [exact Cz|].
    intros i Hi. rewrite Az by exact Hi. rewrite (R' i Hi). pose proof (chunks_row_arr o Co i Hi) as Q. cbn [o irr] in Q. rewrite Q. reflexivity.
Qed.
(* p moved by the radius of the kernel *)
Definition inner (C : vconv) (p : voxel) : voxel := let '(a, b, c) := p in (a + reach C 0, b + reach C 1, c + reach C 2)%nat.
(* "VALID" keeps the voxels whose window lies inside the grid, with the values of "SAME" *)
Theorem C67_valid C P q steps a B X Y Z : ready C q steps -> grid a B X Y Z -> supplied C P (read_irreps a) ->
  exists z z', vconv_call C P a steps = Ok z /\ vconv_call (padded false C) P a steps = Ok z' /\ irr z' = v_out C /\
    grid z' B (X - 2 * reach C 0) (Y - 2 * reach C 1) (Z - 2 * reach C 2) /\
    forall n p, (n < B)%nat -> In p (box (X - 2 * reach C 0) (Y - 2 * reach C 1) (Z - 2 * reach C 2)) -> In (inner C p) (box X Y Z) /\ voxel_at z' n p = voxel_at z n (inner C p).
Proof.
  intros Rd [Ca La] Su. destruct (setup _ _ _ _ _ Rd Su) as (T & L & M & F & G & LP & EL & LW & EM & Fi). destruct (call_raw C P steps q T L M a B X Y Z Ca La F G LP EL EM) as (K & a2 & H).
  assert (Ec : padded true C = C) by (pose proof (proj1 (proj2 (proj2 (proj2 Rd)))) as Sm; destruct C; cbn in Sm; subst; reflexivity).
  destruct (H true) as (z & E & Iz & Lz & Cz & Az). destruct (H false) as (z' & E' & Iz' & Lz' & Cz' & Az'). rewrite Ec in E. exists z, z'. split; [exact E|]. split; [exact E'|]. split; [exact Iz'|]. split; [split; [exact Cz'|exact Lz']|].
  intros n p Hn Hp. assert (Hi : In (inner C p) (box X Y Z)) by (destruct p as [[p0 p1] p2]; apply in_box in Hp; apply in_box; lia). split; [exact Hi|]. unfold voxel_at. rewrite Az' by (apply at_valid; assumption). rewrite Az by (apply at_valid; assumption). f_equal.
  destruct p as [[p0 p1] p2]. unfold conv_row. cbv zeta. cbn [inner at_voxel nth padded v_same side_len reach v_diameter v_steps]. change (reach (padded true C)) with (reach C). change (reach (padded false C)) with (reach C). change (side_len (padded true C)) with (side_len C). change (side_len (padded false C)) with (side_len C).
  f_equal. apply flat_map_ext. intros u. apply flat_map_ext. intros v. apply flat_map_ext. intros w. rewrite !Nat.sub_0_r.
  replace (p0 + reach C 0 + u - reach C 0)%nat with (p0 + u)%nat by lia. replace (p1 + reach C 1 + v - reach C 1)%nat with (p1 + v)%nat by lia. replace (p2 + reach C 2 + w - reach C 2)%nat with (p2 + w)%nat by lia.
  rewrite !(fun k m => proj2 (Nat.leb_le k m)) by lia. reflexivity.
Qed.
Definition demo_b : iarray := IA [(1%nat, Irrep 0 Even); (1%nat, Irrep 1 Odd)] [2; 3; 3; 3]%nat (fun i => [INR (nth 1 i 0%nat); 1; 2; INR (nth 3 i 0%nat)]) None None.
Example C67_valid_nonvacuous : ready demo_C Odd None /\ grid demo_b 2 3 3 3 /\ (exists P, supplied demo_C P (read_irreps demo_b)) /\ reach demo_C 0 = 1%nat /\ In (inner demo_C (0, 0, 0)%nat) (box 3 3 3).
Proof.
  assert (E : reach demo_C 0 = 1%nat /\ reach demo_C 1 = 1%nat /\ reach demo_C 2 = 1%nat).
  { unfold reach. cbn [demo_C v_diameter v_steps]. unfold Int_part. replace (up (3 / 2 / 1)) with 2%Z by (apply tech_up; lra). auto. }
  destruct E as (E0 & E1 & E2). split; [apply C67_nonvacuous|]. split; [split; [apply (fresh_chunks (irr demo_b) [2; 3; 3; 3]%nat (arr demo_b)); reflexivity|reflexivity]|]. split; [apply supplied_exists; discriminate|]. split; [exact E0|]. cbn [inner]. rewrite E0, E1, E2. apply in_box. lia.
Qed.
