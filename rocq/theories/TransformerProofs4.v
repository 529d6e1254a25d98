(* The Transformer call as a function of what each node hears. *)
From Coq Require Import Reals Lra Lia List Arith Bool ZArith.
From Verif Require Import PyBase PermModel PermProofs IrrepsModel IrrepsProofs IrrepsProofs2 IrrepsStr ArrayModel ArrayProofs ArrayOps RechunkProofs ArithProofs LeadModel LeadProofs BlockProofs AxisProofs StackProofs BilinProofs ActProofs EquivProofs EquivProofs2 SumR EntryProofs ArrayProps2 ArrayProps3 TPModel TPProofs TPProofs2 StableSort TPProofs3 TPProps TPProps2 GradProofs CGModel RotationModel WignerModel WignerProofs WignerProofs2 WignerProps S2Model SHModel S2Proofs2 SHProps SHProps3 ScatterModel ScatterProps NormProofs LinearModel LinearProofs LinearProps LinearComplete LinModModel LinModProofs LinModProofs2 LinModProps ActivationModel MlpModel MlpProps ConvModel ConvProofs ConvProofs2 ConvProofs3 ConvProofs4 ConvProofs5 ConvProofs6 TransformerModel TransformerProofs TransformerProofs2 TransformerProofs3.
Import ListNotations.
Open Scope nat_scope.

(* ---- the whole call ---- *)
(* what node i hears: for every edge that ends there, the row of its source, its own attributes and its cutoff *)
Definition inbox (feats attr : iarray) (N E : nat) (src dst : nat -> Z) (cutoff : nat -> R) (i : nat) : list (list R * list R * R) :=
  map (fun e => (arr feats [node N (src e)], arr attr [e], cutoff e)) (incoming N E dst i).
Definition note_src (q : list R * list R * R) : list R := fst (fst q).
Definition note_attr (q : list R * list R * R) : list R := snd (fst q).
Definition note_cut (q : list R * list R * R) : R := snd q.
Section Pool.
Variables (H : nat) (xv : irreps) (logit : list R -> list R -> list R -> list R) (val : list R -> list R -> list R).
Definition scores (own : list R) (qs : list (list R * list R * R)) : list (R * list R) := map (fun q => (note_cut q, logit own (note_src q) (note_attr q))) qs.
Definition shares (own : list R) (qs : list (list R * list R * R)) (q : list R * list R * R) : list R := map (fun h => sqrt (Rmax 0 (attend (scores own qs) h (note_cut q, logit own (note_src q) (note_attr q))))) (seq 0 H).
Definition pooled (own : list R) (qs : list (list R * list R * R)) : list R := rowsum (dim xv) (map (fun q => weigh H xv (shares own qs q) (val (note_src q) (note_attr q))) qs).
End Pool.
Record tgraph (x : irreps) (fl : list bool) (y : irreps) (fy : list bool) (feats attr : iarray) (N E : nat) (src dst : nat -> Z) : Prop := {
  tg_feats : coherent feats; tg_attr : coherent attr; tg_xi : irr feats = x; tg_xf : zero_flags feats = fl; tg_xl : lead feats = [N]; tg_yi : irr attr = y; tg_yf : zero_flags attr = fy; tg_yl : lead attr = [E];
  tg_src : forall e, e < E -> in_range N (src e); tg_dst : forall e, e < E -> in_range N (dst e) }.
Record tform (T : attention_net) (P : transformer_params) (x : irreps) (fl : list bool) (y : irreps) (fy : list bool) (xv : irreps) (logit : list R -> list R -> list R -> list R) (val : list R -> list R -> list R) (xo : irreps) (out : list R -> list R) : Prop := {
  tm_run : forall feats attr N E src dst cutoff, tgraph x fl y fy feats attr N E src dst -> exists z, transformer_call T P E src dst cutoff attr feats = Ok z /\ irr z = xo /\ lead z = [N] /\ coherent z /\
    forall i, i < N -> arr z [i] = out (pooled (t_heads T) xv logit val (arr feats [i]) (inbox feats attr N E src dst cutoff i));
  tm_logit_len : forall own row a, length own = dim x -> length row = dim x -> length a = dim y -> length (logit own row a) = t_heads T;
  tm_logit_act : forall r own row a, orthogonal3 r -> length own = dim x -> length row = dim x -> length a = dim y -> logit (act (rep_of r) x own) (act (rep_of r) x row) (act (rep_of r) y a) = logit own row a;
  tm_val_len : forall row a, length row = dim x -> length a = dim y -> length (val row a) = dim xv;
  tm_val_act : forall r row a, orthogonal3 r -> length row = dim x -> length a = dim y -> act (rep_of r) xv (val row a) = val (act (rep_of r) x row) (act (rep_of r) y a);
  tm_heads : t_heads T <> 0; tm_div : Forall (fun m => fst m mod t_heads T = 0) xv; tm_pos : positive xv; tm_some : xv <> [];
  tm_out_len : forall row, length row = dim xv -> length (out row) = dim xo;
  tm_out_act : forall r row, orthogonal3 r -> length row = dim xv -> act (rep_of r) xo (out row) = out (act (rep_of r) xv row);
  tm_out_lin : forall t a b, length a = dim xv -> length b = dim xv -> out (lin t a b) = lin t (out a) (out b) }.
Lemma scatter_flags x t n md z : scatter_sum x t n false md = Ok z -> zero_flags z = repeat false (length (irr x)).
Proof. unfold scatter_sum, scatter_irreps. destruct (scatter_op _ _ _ _ _ _ _ _ _) as [[s a]|]; [|discriminate]. cbn [bind]. apply mkIA_new_flags. Qed.
Lemma tform_explicit T P gn x fl y fy fk flo g : f_ok T gn x x y -> f_ok T gn (t_out T) x y -> length fl = length x -> length fy = length y ->
  step2k (tf_f T (q_key P) x) x fl y fy (f_irreps T x x y) fk (f_row T (q_key P) gn x x y) -> logit_form T (q_logit P) x fl (f_irreps T x x y) fk [(t_heads T, Irrep 0 Even)] flo g ->
  t_heads T <> 0 -> Forall (fun m => fst m mod t_heads T = 0) (f_irreps T (t_out T) x y) ->
  (forall L, layer_for (default_linear (cv T) (t_out T)) (zero_like (f_irreps T (t_out T) x y) [] (repeat false (length (f_irreps T (t_out T) x y)))) = Ok L -> supplies (q_out P) [] L) ->
  exists L, layer_for (default_linear (cv T) (t_out T)) (zero_like (f_irreps T (t_out T) x y) [] (repeat false (length (f_irreps T (t_out T) x y)))) = Ok L /\
  tform T P x fl y fy (f_irreps T (t_out T) x y) (fun own row a => g own (f_row T (q_key P) gn x x y row a)) (f_row T (q_val P) gn (t_out T) x y)
    (result_irreps (default_linear (cv T) (t_out T)) (zero_like (f_irreps T (t_out T) x y) [] (repeat false (length (f_irreps T (t_out T) x y)))))
    (module_row (cv T) (t_out T) (f_irreps T (t_out T) x y) (repeat false (length (f_irreps T (t_out T) x y))) (q_out P) L).
Proof.
  intros OK OV Lfl Lfy Ks Lg NH Dv HP. set (xv := f_irreps T (t_out T) x y) in *. set (fv := repeat false (length xv)) in *. set (kx := f_irreps T x x y) in *. set (krow := f_row T (q_key P) gn x x y) in *.
  assert (Lv : length fv = length xv) by apply repeat_length. assert (Pv : positive xv) by apply f_positive. assert (Nv : xv <> []) by apply OV.
  destruct (module_step (cv T) (t_out T) xv fv (q_out P) Lv HP) as (L & flo' & EL & Sp & Lo' & Sm). exists L. split; [exact EL|]. set (H := t_heads T) in *.
  assert (Dh : dim [(H, Irrep 0 Even)] = H) by (cbn; lia).
  split; auto.
  - intros feats attr N E src dst cutoff [Cf Ca Ix Fx Lx Iy Fy Ly Hs Hd]. unfold transformer_call, tf_pool. fold H. rewrite Lx. cbn [hd]. rewrite Ix.
    destruct (take_yields feats N E src Cf Lx Hs) as (xs & -> & Is & Fs & Ls & Cs & As). cbn [bind]. rewrite Ix in Is. rewrite Fx in Fs.
    destruct (Ks xs attr Cs Ca Is Fs Iy Fy ltac:(congruence)) as (key & -> & Ik & Fk & Lk & Ck & Ak). cbn [bind]. rewrite Ls in Lk, Ak.
    destruct (take_yields feats N E dst Cf Lx Hd) as (xd & -> & Id & Fd & Ld & Cd & Ad). cbn [bind]. rewrite Ix in Id. rewrite Fx in Fd.
    destruct (lf_run _ _ _ _ _ _ _ _ _ Lg xd key Cd Ck Id Fd Ik Fk ltac:(congruence)) as (lo & -> & Il & _ & Ll & Cl & Al). cbn [bind]. rewrite Ld in Ll, Al. rewrite Il, Dh.
    assert (Lrow : forall e, e < E -> length (arr lo [e]) = H) by (intros e He; rewrite (proj1 Cl) by (rewrite Ll; constructor; [exact He|constructor]); rewrite Il; exact Dh).
    destruct (alpha_rows N E dst H cutoff (fun e => arr lo [e]) Hd Lrow) as (al & -> & Aal). cbn [bind].
    destruct (f_yields T (q_val P) gn (t_out T) x y xs attr OV Cs Ca Is Iy ltac:(congruence)) as (v & -> & Iv & Lvv & Cv & Av). cbn [bind]. fold xv in Iv. rewrite Ls in Lvv, Av.
    assert (Dv' : Forall (fun m => fst m mod H = 0) (irr v)) by (rewrite Iv; exact Dv). assert (Pv' : positive (irr v)) by (rewrite Iv; exact Pv). assert (Nv' : irr v <> []) by (rewrite Iv; exact Nv).
    destruct (tf_heads_yields H v E (fun i => al (hd 0 i)) NH Dv' Pv' Nv' Cv Lvv) as (u & -> & Iu & Lu & Cu & Au). cbn [bind]. rewrite Iv in Iu, Au.
    destruct (scatter_sum_dst MPromise u [E] [] (fun i => dst (hd 0 i)) N Cu Lu) as (w & Ew & Iw & Lw & Cw & Aw). pose proof (scatter_flags _ _ _ _ _ Ew) as Fw. rewrite Ew. cbn [bind]. rewrite Iu in Iw, Fw, Aw. fold fv in Fw.
    destruct (Sm w Cw Iw Fw) as (z & Ez & Iz & _ & Lz & Cz & Az). exists z. split; [exact Ez|]. split; [exact Iz|]. split; [congruence|]. split; [exact Cz|].
    intros i Hi. assert (V1 : valid [N] [i]) by (constructor; [exact Hi|constructor]). rewrite Az by (rewrite Lw; exact V1). f_equal. rewrite Aw by exact V1. cbn [hd tl]. unfold landing. rewrite hits_incoming by exact Hd. unfold pooled, inbox. rewrite !map_map. f_equal. apply map_ext_in.
    intros e He0. pose proof He0 as He. unfold incoming in He. apply filter_In in He as [He Hn]. apply in_seq in He. assert (He' : e < E) by lia. apply Nat.eqb_eq in Hn. assert (Ve : valid [E] [e]) by (constructor; [exact He'|constructor]).
    cbn [app]. rewrite Au by exact Ve. cbn [hd]. unfold note_src, note_attr, note_cut. cbn [fst snd]. f_equal; [|rewrite Av by exact Ve; rewrite As by exact He'; reflexivity].
    assert (G : forall f, f < E -> In f (incoming N E dst i) -> arr lo [f] = g (arr feats [i]) (krow (arr feats [node N (src f)]) (arr attr [f]))).
    { intros f Hf Hf2. unfold incoming in Hf2. apply filter_In in Hf2 as [_ Hf2]. apply Nat.eqb_eq in Hf2. assert (Vf : valid [E] [f]) by (constructor; [exact Hf|constructor]). rewrite Al by exact Vf. rewrite Ad by exact Hf. rewrite Hf2. rewrite Ak by exact Vf. rewrite As by exact Hf. reflexivity. }
    assert (Bx : box_of N E dst cutoff (fun e => arr lo [e]) (node N (dst e)) = scores (fun own row a => g own (krow row a)) (arr feats [i]) (map (fun e => (arr feats [node N (src e)], arr attr [e], cutoff e)) (incoming N E dst i))).
    { rewrite Hn. unfold box_of, scores. rewrite map_map. apply map_ext_in. intros f Hf. unfold note_src, note_attr, note_cut. cbn [fst snd]. rewrite G; [reflexivity| |exact Hf]. unfold incoming in Hf. apply filter_In in Hf as [Hf _]. apply in_seq in Hf. lia. }
    rewrite Aal by exact He'. rewrite Bx. unfold shares. rewrite firstn_app, map_length, seq_length, Nat.sub_diag, firstn_O, app_nil_r. rewrite firstn_all2 by (rewrite map_length, seq_length; lia). rewrite map_map. apply map_ext_in. intros h Hh. unfold note_src, note_attr, note_cut. cbn [fst snd]. rewrite <- G by assumption. reflexivity.
  - intros own row a Lo Lr La. refine (eq_trans (lf_len _ _ _ _ _ _ _ _ _ Lg own _ Lo _) Dh). apply f_len.
  - intros r own row a O Lo Lr La. cbv beta. assert (HD : rep_ok (rep_of r)) by apply as_rep_ok. unfold krow. rewrite <- (f_act T (q_key P) gn x x y (rep_of r) row a HD (rep_of_scalar r O) (rep_of_intertwines r O) Lr La). apply (lf_act _ _ _ _ _ _ _ _ _ Lg r own _ O Lo). apply f_len.
  - intros row a _ _. apply f_len.
  - intros r row a O Lr La. assert (HD : rep_ok (rep_of r)) by apply as_rep_ok. exact (f_act T (q_val P) gn (t_out T) x y (rep_of r) row a HD (rep_of_scalar r O) (rep_of_intertwines r O) Lr La).
  - intros row Lr. now apply module_row_length.
  - intros r row O Lr. apply (module_row_eqv (cv T) (t_out T) xv fv (q_out P) L Lv EL Sp); [apply as_rep_ok|now apply rep_of_scalar|exact Lr].
  - apply (module_row_linear (cv T) (t_out T) xv fv (q_out P) L Lv EL Sp).
Qed.
