From Verif Require Import M_RealBase M_Util M_Grid M_Fluid M_Plane M_Euler S_Euler L_RealBase L_Coord L_Fluid L_Fluid5 L_Fluid6 L_Plane.
From Flocq Require Import Core.Raux.
From Coq Require Import Reals Lra Lia ZArith String FunctionalExtensionality List.
Import ListNotations.
Open Scope R_scope.
Open Scope string_scope.
Open Scope list_scope.

Lemma fget_ok s n k : NoDup (fs_vars s) -> nth_error (fs_vars s) k = Some n -> fget_idx s n = Z.of_nat k.
Proof.
  intros Hn Hk. pose proof (fidx_ok s n k Hn Hk) as F. unfold fidx, fim_at in F. unfold fget_idx, fim_get_idx.
  destruct (smfind _ _); congruence.
Qed.
Lemma fget_none s n : ~ In n (fs_vars s) -> fget_idx s n = (-1)%Z.
Proof.
  intros I. pose proof (fidx_none s n I) as F. unfold fidx, fim_at in F. unfold fget_idx, fim_get_idx. destruct (smfind _ _); congruence.
Qed.

Lemma euler1_ok pres r m E p0 p1 p2 : r <> 0 ->
  euler_pt 1 pres 0 2 [p0; p1; p2] [r; m; E] = FOk (euler1 r m E (pres [r; m; E])).
Proof.
  intros Hr. unfold euler_pt. change (Z.to_nat (2 + 1)) with 3%nat. cbn [seq fmapM Z.of_nat]. 
  change (Z.of_nat 1) with 1%Z. change (Z.of_nat 2) with 2%Z. cbn [Pos.of_succ_nat Pos.succ]. ax. rewrite (rdiv_q _ _ Hr). cbn [fnan]. ax.
  cbn [map]. change (0 + 1)%Z with 1%Z. ax. change (1 + 0)%Z with 1%Z. ax. change (1 + 1)%Z with 2%Z. ax.
  unfold euler1. f_equal. apply f_equal2; [reflexivity|]. apply f_equal2; [f_equal; field; auto|]. f_equal. f_equal. field. auto.
Qed.
Lemma euler2_ok pres r m0 m1 E p0 p1 p2 p3 : r <> 0 ->
  euler_pt 2 pres 0 3 [p0; p1; p2; p3] [r; m0; m1; E] = FOk (euler2 r m0 m1 E (pres [r; m0; m1; E])).
Proof.
  intros Hr. unfold euler_pt. change (Z.to_nat (3 + 1)) with 4%nat. cbn [seq fmapM Z.of_nat]. cbn [Pos.of_succ_nat Pos.succ]. ax.
  rewrite (rdiv_q _ _ Hr). cbn [fnan]. ax.
  cbn [map]. change (0 + 1)%Z with 1%Z. ax. change (1 + 0)%Z with 1%Z. ax. change (1 + 1)%Z with 2%Z. ax. change (2 + 1)%Z with 3%Z. ax.
  unfold euler2. f_equal. apply f_equal2; [reflexivity|]. apply f_equal2; [|apply f_equal2; [|apply f_equal2; [|reflexivity]]];
  (apply f_equal2; [|apply f_equal2; [|reflexivity]]); field; auto.
Qed.
Lemma euler_vacuum1 pres m E prev : euler_pt 1 pres 0 2 prev [0; m; E] = FNan.
Proof.
  unfold euler_pt. change (Z.to_nat (2 + 1)) with 3%nat. cbn [seq fmapM Z.of_nat Pos.of_succ_nat Pos.succ]. ax.
  rewrite (rdiv_zero 1 0 eq_refl). reflexivity.
Qed.
Lemma euler_vacuum2 pres m0 m1 E prev : euler_pt 2 pres 0 3 prev [0; m0; m1; E] = FNan.
Proof.
  unfold euler_pt. change (Z.to_nat (3 + 1)) with 4%nat. cbn [seq fmapM Z.of_nat Pos.of_succ_nat Pos.succ]. ax.
  rewrite (rdiv_zero 1 0 eq_refl). reflexivity.
Qed.

Lemma gaussian_ok c s p : sr_sigma c <> 0 -> calc_gaussian p (src_mu c) (sr_sigma c) s = Some (p * gauss c s).
Proof.
  intros H. unfold calc_gaussian. rewrite !(rdiv_q _ _ H). cbn [bind]. rewrite (rdiv_q _ _ H). cbn [bind]. do 2 f_equal. unfold gauss, src_mu. f_equal.
  field. auto.
Qed.
Lemma prefac_ok c : sr_sigma c <> 0 -> rho_prefac c = Some (sr_mask c * K_rho / sr_sigma c) /\ u_prefac c = Some (sr_mask c * K_u / sr_sigma c) /\
  E_prefac c = Some (sr_mask c * K_E / sr_sigma c).
Proof.
  intros H. unfold rho_prefac, u_prefac, E_prefac. rewrite !(rdiv_q _ _ H). unfold K_rho, K_u, K_E. repeat split; f_equal; field; auto.
Qed.
Lemma addpts_ok s out ix f g o : (forall i, (i < fs_npts s)%nat -> f i = Some (g i)) -> aget out ix = FOk o ->
  exists o', addpts s out ix f = aset out ix o' /\ forall i, (i < fs_npts s)%nat -> o' i = o i + g i.
Proof.
  intros Hf Ho. destruct (fpts_ok _ f g Hf) as (h & Hh & Hg). unfold addpts. rewrite Ho, Hh. cbn [fbind fnan].
  eexists. split; [reflexivity|]. intros i Hi. unfold vadd. rewrite Hg; auto.
Qed.

Lemma pt_u c k up x : sr_sigma c <> 0 -> src_mu c <> 0 ->
  (do q <- rdiv x (src_mu c); do g <- calc_gaussian up (src_mu c) (sr_sigma c) x; Some (k * (q - 1) * g)) = Some (k * (x / src_mu c - 1) * (up * gauss c x)).
Proof. intros H1 H2. rewrite (rdiv_q _ _ H2). cbn [bind]. rewrite gaussian_ok by exact H1. reflexivity. Qed.
Lemma pt_E c ep x : sr_sigma c <> 0 -> (do g <- calc_gaussian ep (src_mu c) (sr_sigma c) x; Some (g / 2)) = Some (ep * gauss c x / 2).
Proof. intros H1. rewrite gaussian_ok by exact H1. reflexivity. Qed.
Lemma field_added s phys n f k out : NoDup (fs_vars s) -> length phys = length (fs_vars s) -> src_field s phys n f ->
  nth_error (fs_vars s) k = Some n -> (k < length out)%nat ->
  exists o', (if (0 <=? fget_idx s (n ++ "_src"))%Z then
     (if (0 <=? fget_idx s n)%Z then let! src := aget phys (fget_idx s (n ++ "_src")) in upd out (fget_idx s n) (fun o => vadd o src) else FOk out)
   else FOk out) = FOk (set_nth out k o') /\ forall o i, nth_error out k = Some o -> o' i = o i + f i.
Proof.
  intros Hn Hl [F1 F2] Hk Ho. rewrite (fget_ok s n k Hn Hk).
  destruct (nth_error out k) as [o|] eqn:Eo; [|apply nth_error_None in Eo; lia].
  destruct (in_dec String.string_dec (n ++ "_src")%string (fs_vars s)) as [I|I].
  - destruct (F1 I) as (j & Hj & Hp). rewrite (fget_ok s _ j Hn Hj). rewrite !(proj2 (Z.leb_le _ _)) by lia.
    rewrite aget_of_nat, Hp. cbn [fbind]. unfold upd. rewrite aget_of_nat, Eo. cbn [fbind]. rewrite aset_of_nat by exact Ho.
    eexists. split; [reflexivity|]. intros o0 i E. injection E as <-. reflexivity.
  - rewrite (fget_none s _ I), (F2 I). cbn [Z.leb Z.compare]. exists o. split.
    + f_equal. clear - Eo. revert k Eo. induction out as [|a r IH]; intros [|k] E; cbn in *; try discriminate; [congruence|]. f_equal. auto.
    + intros o0 i E. injection E as <-. ring.
Qed.

Section Src.
Variables (s : fsess) (c : srcpar) (X Y : fld) (phys : list fld).
Hypothesis Hc : src_ok c.
Hypothesis Hn : NoDup (fs_vars s).
Hypothesis Hl : length phys = length (fs_vars s).

Lemma src_apply2 r f0 f1 f2 f3 a b d e : fs_space s = 2%nat -> fs_vars s = ("rho" :: "rhou" :: "rhov" :: "E" :: r) ->
  src_field s phys "rho" f0 -> src_field s phys "rhou" f1 -> src_field s phys "rhov" f2 -> src_field s phys "E" f3 ->
  exists a' b' d' e', src_apply s c X Y phys [a; b; d; e] = FOk [a'; b'; d'; e'] /\ forall i, (i < fs_npts s)%nat ->
    a' i = a i + S_rho c (X i) (Y i) + f0 i /\ b' i = b i + cos (sr_theta c) * S_u c (X i) (Y i) + f1 i /\
    d' i = d i + sin (sr_theta c) * S_u c (X i) (Y i) + f2 i /\ e' i = e i + S_E c (X i) (Y i) + f3 i.
Proof.
  intros Hd Hv G0 G1 G2 G3. destruct Hc as [Hsg Hsm]. assert (Hmu : src_mu c <> 0) by (unfold src_mu; lra).
  destruct (prefac_ok c Hsg) as (P1 & P2 & P3).
  assert (V0 : nth_error (fs_vars s) 0 = Some "rho") by (rewrite Hv; reflexivity).
  assert (V1 : nth_error (fs_vars s) 1 = Some "rhou") by (rewrite Hv; reflexivity).
  assert (V2 : nth_error (fs_vars s) 2 = Some "rhov") by (rewrite Hv; reflexivity).
  assert (V3 : nth_error (fs_vars s) 3 = Some "E") by (rewrite Hv; reflexivity).
  pose proof (fget_ok s _ 0 Hn V0) as I0. pose proof (fget_ok s _ 1 Hn V1) as I1.
  pose proof (fget_ok s _ 2 Hn V2) as I2. pose proof (fget_ok s _ 3 Hn V3) as I3. cbn [Z.of_nat Pos.of_succ_nat Pos.succ] in I0, I1, I2, I3.
  unfold src_apply. rewrite P1, P2, P3, Hd, I0, I1, I2, I3. cbn [fnan fbind Nat.eqb].
  destruct (addpts_ok s [a; b; d; e] 0%Z (fun i => calc_gaussian (sr_mask c * K_rho / sr_sigma c) (src_mu c) (sr_sigma c) (src_s c (X i) (Y i))) _ _ (fun i _ => gaussian_ok c (src_s c (X i) (Y i)) (sr_mask c * K_rho / sr_sigma c) Hsg) eq_refl) as (a1 & A1 & B1). rewrite A1. ax.
  destruct (addpts_ok s [a1; b; d; e] 1%Z (fun i => do q <- rdiv (src_s c (X i) (Y i)) (src_mu c); do g <- calc_gaussian (sr_mask c * K_u / sr_sigma c) (src_mu c) (sr_sigma c) (src_s c (X i) (Y i)); Some (cos (sr_theta c) * (q - 1) * g)) _ _ (fun i _ => pt_u c (cos (sr_theta c)) (sr_mask c * K_u / sr_sigma c) (src_s c (X i) (Y i)) Hsg Hmu) eq_refl) as (b1 & A2 & B2). rewrite A2. ax.
  destruct (addpts_ok s [a1; b1; d; e] 2%Z (fun i => do q <- rdiv (src_s c (X i) (Y i)) (src_mu c); do g <- calc_gaussian (sr_mask c * K_u / sr_sigma c) (src_mu c) (sr_sigma c) (src_s c (X i) (Y i)); Some (sin (sr_theta c) * (q - 1) * g)) _ _ (fun i _ => pt_u c (sin (sr_theta c)) (sr_mask c * K_u / sr_sigma c) (src_s c (X i) (Y i)) Hsg Hmu) eq_refl) as (d1 & A3 & B3). rewrite A3. ax.
  destruct (addpts_ok s [a1; b1; d1; e] 3%Z (fun i => do g <- calc_gaussian (sr_mask c * K_E / sr_sigma c) (src_mu c) (sr_sigma c) (src_s c (X i) (Y i)); Some (g / 2)) _ _ (fun i _ => pt_E c (sr_mask c * K_E / sr_sigma c) (src_s c (X i) (Y i)) Hsg) eq_refl) as (e1 & A4 & B4). rewrite A4. ax.
  unfold src_fields.
  destruct (field_added s phys "rho" f0 0 [a1; b1; d1; e1] Hn Hl G0 V0 ltac:(cbn; lia)) as (a2 & Q0 & U0). rewrite Q0. cbn [fbind set_nth].
  destruct (field_added s phys "rhou" f1 1 [a2; b1; d1; e1] Hn Hl G1 V1 ltac:(cbn; lia)) as (b2 & Q1 & U1). rewrite Q1. cbn [fbind set_nth].
  destruct (field_added s phys "rhov" f2 2 [a2; b2; d1; e1] Hn Hl G2 V2 ltac:(cbn; lia)) as (d2 & Q2 & U2). rewrite Q2. cbn [fbind set_nth].
  destruct (field_added s phys "E" f3 3 [a2; b2; d2; e1] Hn Hl G3 V3 ltac:(cbn; lia)) as (e2 & Q3 & U3). rewrite Q3. cbn [fbind set_nth].
  exists a2, b2, d2, e2. split; [reflexivity|]. intros i Hi.
  rewrite (U0 a1 i eq_refl), (U1 b1 i eq_refl), (U2 d1 i eq_refl), (U3 e1 i eq_refl).
  rewrite (B1 i Hi), (B2 i Hi), (B3 i Hi), (B4 i Hi).
  unfold S_rho, S_u, S_E, src_s, along_line. unfold src_mu. repeat split; field; auto.
Qed.
Lemma src_apply1 r f0 f1 f3 a b e : fs_space s = 1%nat -> fs_vars s = ("rho" :: "rhou" :: "E" :: r) -> ~ In "rhov" (fs_vars s) ->
  src_field s phys "rho" f0 -> src_field s phys "rhou" f1 -> src_field s phys "E" f3 ->
  exists a' b' e', src_apply s c X Y phys [a; b; e] = FOk [a'; b'; e'] /\ forall i, (i < fs_npts s)%nat ->
    a' i = a i + S_rho c (X i) (Y i) + f0 i /\ b' i = b i + cos (sr_theta c) * S_u c (X i) (Y i) + f1 i /\
    e' i = e i + S_E c (X i) (Y i) + f3 i.
Proof.
  intros Hd Hv Hrv G0 G1 G3. destruct Hc as [Hsg Hsm]. assert (Hmu : src_mu c <> 0) by (unfold src_mu; lra).
  destruct (prefac_ok c Hsg) as (P1 & P2 & P3).
  assert (V0 : nth_error (fs_vars s) 0 = Some "rho") by (rewrite Hv; reflexivity).
  assert (V1 : nth_error (fs_vars s) 1 = Some "rhou") by (rewrite Hv; reflexivity).
  assert (V3 : nth_error (fs_vars s) 2 = Some "E") by (rewrite Hv; reflexivity).
  pose proof (fget_ok s _ 0 Hn V0) as I0. pose proof (fget_ok s _ 1 Hn V1) as I1.
  pose proof (fget_ok s _ 2 Hn V3) as I3. cbn [Z.of_nat Pos.of_succ_nat Pos.succ] in I0, I1, I3.
  unfold src_apply. rewrite P1, P2, P3, Hd, I0, I1, I3. cbn [fnan fbind Nat.eqb].
  destruct (addpts_ok s [a; b; e] 0%Z (fun i => calc_gaussian (sr_mask c * K_rho / sr_sigma c) (src_mu c) (sr_sigma c) (src_s c (X i) (Y i))) _ _ (fun i _ => gaussian_ok c (src_s c (X i) (Y i)) (sr_mask c * K_rho / sr_sigma c) Hsg) eq_refl) as (a1 & A1 & B1). rewrite A1. ax.
  destruct (addpts_ok s [a1; b; e] 1%Z (fun i => do q <- rdiv (src_s c (X i) (Y i)) (src_mu c); do g <- calc_gaussian (sr_mask c * K_u / sr_sigma c) (src_mu c) (sr_sigma c) (src_s c (X i) (Y i)); Some (cos (sr_theta c) * (q - 1) * g)) _ _ (fun i _ => pt_u c (cos (sr_theta c)) (sr_mask c * K_u / sr_sigma c) (src_s c (X i) (Y i)) Hsg Hmu) eq_refl) as (b1 & A2 & B2). rewrite A2. ax.
  destruct (addpts_ok s [a1; b1; e] 2%Z (fun i => do g <- calc_gaussian (sr_mask c * K_E / sr_sigma c) (src_mu c) (sr_sigma c) (src_s c (X i) (Y i)); Some (g / 2)) _ _ (fun i _ => pt_E c (sr_mask c * K_E / sr_sigma c) (src_s c (X i) (Y i)) Hsg) eq_refl) as (e1 & A4 & B4). rewrite A4. ax.
  unfold src_fields.
  destruct (field_added s phys "rho" f0 0 [a1; b1; e1] Hn Hl G0 V0 ltac:(cbn; lia)) as (a2 & Q0 & U0). rewrite Q0. cbn [fbind set_nth].
  destruct (field_added s phys "rhou" f1 1 [a2; b1; e1] Hn Hl G1 V1 ltac:(cbn; lia)) as (b2 & Q1 & U1). rewrite Q1. cbn [fbind set_nth].
  rewrite (fget_none s "rhov" Hrv).
  replace (if (0 <=? fget_idx s ("rhov" ++ "_src"))%Z then if (0 <=? -1)%Z then let! src := aget phys (fget_idx s ("rhov" ++ "_src")) in upd [a2; b2; e1] (-1) (fun o => vadd o src) else FOk [a2; b2; e1] else FOk [a2; b2; e1])
    with (FOk [a2; b2; e1]) by (destruct (0 <=? fget_idx s ("rhov" ++ "_src"))%Z; reflexivity). cbn [fbind].
  destruct (field_added s phys "E" f3 2 [a2; b2; e1] Hn Hl G3 V3 ltac:(cbn; lia)) as (e2 & Q3 & U3). rewrite Q3. cbn [fbind set_nth].
  exists a2, b2, e2. split; [reflexivity|]. intros i Hi.
  rewrite (U0 a1 i eq_refl), (U1 b1 i eq_refl), (U3 e1 i eq_refl).
  rewrite (B1 i Hi), (B2 i Hi), (B4 i Hi).
  unfold S_rho, S_u, S_E, src_s, along_line. unfold src_mu. repeat split; field; auto.
Qed.
End Src.

Lemma fall_ok {A} (z : A) n f g : (forall i, (i < n)%nat -> f i = FOk (g i)) -> exists h, fall z n f = FOk h /\ forall i, (i < n)%nat -> h i = g i.
Proof.
  induction n as [|n IH]; intros H; [eexists; split; [reflexivity|intros; lia]|].
  destruct IH as (h & Hh & Hg); [intros; apply H; lia|]. cbn [fall]. rewrite Hh. cbn [fbind]. rewrite (H n) by lia. cbn [fbind].
  eexists. split; [reflexivity|]. intros i Hi. cbn. destruct (Nat.eqb_spec i n) as [->|Hne]; [reflexivity|]. apply Hg. lia.
Qed.
Lemma fall_nan {A} (z : A) n f g i : (i < n)%nat -> f i = FNan -> (forall j, (j < i)%nat -> f j = FOk (g j)) -> fall z n f = FNan.
Proof.
  induction n as [|n IH]; intros Hi Hf Hj; [lia|]. cbn [fall]. destruct (Nat.eq_dec i n) as [->|Hne].
  - destruct (fall_ok z n f g Hj) as (h & Hh & _). rewrite Hh. cbn [fbind]. rewrite Hf. reflexivity.
  - rewrite IH by (auto; lia). reflexivity.
Qed.

Definition forcing (s : fsess) (X Y : fld) (phys : list fld) :=
  fix go (l : list srcpar) (out : list fld) : fres (list fld) :=
     match l with [] => FOk out | c :: r => let! out' := src_apply s c X Y phys out in go r out' end.
Lemma forcing2 s X Y phys r f0 f1 f2 f3 : NoDup (fs_vars s) -> length phys = length (fs_vars s) ->
  fs_space s = 2%nat -> fs_vars s = ("rho" :: "rhou" :: "rhov" :: "E" :: r) ->
  src_field s phys "rho" f0 -> src_field s phys "rhou" f1 -> src_field s phys "rhov" f2 -> src_field s phys "E" f3 ->
  forall l a b d e, Forall src_ok l ->
  exists a' b' d' e', forcing s X Y phys l [a; b; d; e] = FOk [a'; b'; d'; e'] /\ forall i, (i < fs_npts s)%nat ->
    a' i = a i + total (fun c => S_rho c (X i) (Y i)) l + INR (length l) * f0 i /\
    b' i = b i + total (fun c => cos (sr_theta c) * S_u c (X i) (Y i)) l + INR (length l) * f1 i /\
    d' i = d i + total (fun c => sin (sr_theta c) * S_u c (X i) (Y i)) l + INR (length l) * f2 i /\
    e' i = e i + total (fun c => S_E c (X i) (Y i)) l + INR (length l) * f3 i.
Proof.
  intros Hn Hl Hd Hv G0 G1 G2 G3 l. induction l as [|c l IH]; intros a b d e HF.
  - exists a, b, d, e. split; [reflexivity|]. intros i Hi. cbn [total fold_right length INR]. repeat split; ring.
  - inversion HF as [|? ? Hc HF']; subst. 
    destruct (src_apply2 s c X Y phys Hc Hn Hl r f0 f1 f2 f3 a b d e Hd Hv G0 G1 G2 G3) as (a1 & b1 & d1 & e1 & A & B).
    destruct (IH a1 b1 d1 e1 HF') as (a2 & b2 & d2 & e2 & A2 & B2). exists a2, b2, d2, e2.
    cbn [forcing]. rewrite A. cbn [fbind]. split; [exact A2|]. intros i Hi. destruct (B i Hi) as (U0 & U1 & U2 & U3).
    destruct (B2 i Hi) as (W0 & W1 & W2 & W3). rewrite W0, W1, W2, W3, U0, U1, U2, U3. cbn [length]. rewrite S_INR. cbn [total fold_right]. 
    unfold total. repeat split; ring.
Qed.
Lemma forcing1 s X Y phys r f0 f1 f3 : NoDup (fs_vars s) -> length phys = length (fs_vars s) ->
  fs_space s = 1%nat -> fs_vars s = ("rho" :: "rhou" :: "E" :: r) -> ~ In "rhov" (fs_vars s) ->
  src_field s phys "rho" f0 -> src_field s phys "rhou" f1 -> src_field s phys "E" f3 ->
  forall l a b e, Forall src_ok l ->
  exists a' b' e', forcing s X Y phys l [a; b; e] = FOk [a'; b'; e'] /\ forall i, (i < fs_npts s)%nat ->
    a' i = a i + total (fun c => S_rho c (X i) (Y i)) l + INR (length l) * f0 i /\
    b' i = b i + total (fun c => cos (sr_theta c) * S_u c (X i) (Y i)) l + INR (length l) * f1 i /\
    e' i = e i + total (fun c => S_E c (X i) (Y i)) l + INR (length l) * f3 i.
Proof.
  intros Hn Hl Hd Hv Hr G0 G1 G3 l. induction l as [|c l IH]; intros a b e HF.
  - exists a, b, e. split; [reflexivity|]. intros i Hi. cbn [total fold_right length INR]. repeat split; ring.
  - inversion HF as [|? ? Hc HF']; subst. 
    destruct (src_apply1 s c X Y phys Hc Hn Hl r f0 f1 f3 a b e Hd Hv Hr G0 G1 G3) as (a1 & b1 & e1 & A & B).
    destruct (IH a1 b1 e1 HF') as (a2 & b2 & e2 & A2 & B2). exists a2, b2, e2.
    cbn [forcing]. rewrite A. cbn [fbind]. split; [exact A2|]. intros i Hi. destruct (B i Hi) as (U0 & U1 & U3).
    destruct (B2 i Hi) as (W0 & W1 & W3). rewrite W0, W1, W3, U0, U1, U3. cbn [length]. rewrite S_INR. cbn [total fold_right]. 
    unfold total. repeat split; ring.
Qed.

Section Rhs.
Variables (adv : nat -> (nat -> list (list R)) -> list fld -> fld) (pres : list R -> R) (s : fsess) (forc : list srcpar) (X Y : fld)
  (fprev : nat -> list (list R)) (phys : list fld).
Hypothesis Hn : NoDup (fs_vars s).
Hypothesis Hl : length phys = length (fs_vars s).
Hypothesis HF : Forall src_ok forc.
Lemma rhs2 r n mx my E p0 p1 p2 p3 f0 f1 f2 f3 : fs_space s = 2%nat -> fs_vars s = ("rho" :: "rhou" :: "rhov" :: "E" :: r) ->
  (forall i, length (fprev i) = 4%nat) -> (forall i, (i < fs_npts s)%nat -> n i <> 0) ->
  src_field s phys "rho" f0 -> src_field s phys "rhou" f1 -> src_field s phys "rhov" f2 -> src_field s phys "E" f3 ->
  exists F a b d e, sol_rhs adv pres s forc X Y fprev phys [n; mx; my; E] [p0; p1; p2; p3] = FOk [a; b; d; e] /\
  (forall i, (i < fs_npts s)%nat -> F i = euler2 (n i) (mx i) (my i) (E i) (pres [n i; mx i; my i; E i])) /\
  forall i, (i < fs_npts s)%nat -> let A k := adv k F [n; mx; my; E] i in
    a i = - A 0%nat + total (fun c => S_rho c (X i) (Y i)) forc + INR (length forc) * f0 i /\
    b i = - A 1%nat + total (fun c => cos (sr_theta c) * S_u c (X i) (Y i)) forc + INR (length forc) * f1 i /\
    d i = - A 2%nat + total (fun c => sin (sr_theta c) * S_u c (X i) (Y i)) forc + INR (length forc) * f2 i /\
    e i = - A 3%nat + total (fun c => S_E c (X i) (Y i)) forc + INR (length forc) * f3 i.
Proof.
  intros Hd Hv Hfp Hr G0 G1 G2 G3. unfold sol_rhs.
  rewrite (fget_ok s "E" 3 Hn) by (rewrite Hv; reflexivity). rewrite (fget_ok s "rho" 0 Hn) by (rewrite Hv; reflexivity). rewrite Hd.
  cbn [Z.of_nat Pos.of_succ_nat Pos.succ].
  edestruct (fall_ok (A := list (list R)) [] (fs_npts s)) as (F & HFa & HFb);
    [|rewrite HFa; cbn [fbind imap]; change (Z.of_nat 0 <=? 3)%Z with true; change (Z.of_nat 1 <=? 3)%Z with true;
      change (Z.of_nat 2 <=? 3)%Z with true; change (Z.of_nat 3 <=? 3)%Z with true].
  { intros i Hi. cbn [map]. specialize (Hfp i). destruct (fprev i) as [|q0 [|q1 [|q2 [|q3 [|]]]]]; try discriminate.
    rewrite euler2_ok by auto. reflexivity. }
  fold (forcing s X Y phys).
  destruct (forcing2 s X Y phys r f0 f1 f2 f3 Hn Hl Hd Hv G0 G1 G2 G3 forc (vneg (adv 0%nat F [n; mx; my; E])) (vneg (adv 1%nat F [n; mx; my; E]))
    (vneg (adv 2%nat F [n; mx; my; E])) (vneg (adv 3%nat F [n; mx; my; E])) HF) as (a & b & d & e & R1 & R2).
  exists F, a, b, d, e. split; [exact R1|]. split; [exact HFb|]. exact R2.
Qed.
Lemma rhs1 r n mx E p0 p1 p3 f0 f1 f3 : fs_space s = 1%nat -> fs_vars s = ("rho" :: "rhou" :: "E" :: r) -> ~ In "rhov" (fs_vars s) ->
  (forall i, length (fprev i) = 3%nat) -> (forall i, (i < fs_npts s)%nat -> n i <> 0) ->
  src_field s phys "rho" f0 -> src_field s phys "rhou" f1 -> src_field s phys "E" f3 ->
  exists F a b e, sol_rhs adv pres s forc X Y fprev phys [n; mx; E] [p0; p1; p3] = FOk [a; b; e] /\
  (forall i, (i < fs_npts s)%nat -> F i = euler1 (n i) (mx i) (E i) (pres [n i; mx i; E i])) /\
  forall i, (i < fs_npts s)%nat -> let A k := adv k F [n; mx; E] i in
    a i = - A 0%nat + total (fun c => S_rho c (X i) (Y i)) forc + INR (length forc) * f0 i /\
    b i = - A 1%nat + total (fun c => cos (sr_theta c) * S_u c (X i) (Y i)) forc + INR (length forc) * f1 i /\
    e i = - A 2%nat + total (fun c => S_E c (X i) (Y i)) forc + INR (length forc) * f3 i.
Proof.
  intros Hd Hv Hrv Hfp Hr G0 G1 G3. unfold sol_rhs.
  rewrite (fget_ok s "E" 2 Hn) by (rewrite Hv; reflexivity). rewrite (fget_ok s "rho" 0 Hn) by (rewrite Hv; reflexivity). rewrite Hd.
  cbn [Z.of_nat Pos.of_succ_nat Pos.succ].
  edestruct (fall_ok (A := list (list R)) [] (fs_npts s)) as (F & HFa & HFb);
    [|rewrite HFa; cbn [fbind imap]; change (Z.of_nat 0 <=? 2)%Z with true; change (Z.of_nat 1 <=? 2)%Z with true;
      change (Z.of_nat 2 <=? 2)%Z with true].
  { intros i Hi. cbn [map]. specialize (Hfp i). destruct (fprev i) as [|q0 [|q1 [|q2 [|]]]]; try discriminate.
    rewrite euler1_ok by auto. reflexivity. }
  fold (forcing s X Y phys).
  destruct (forcing1 s X Y phys r f0 f1 f3 Hn Hl Hd Hv Hrv G0 G1 G3 forc (vneg (adv 0%nat F [n; mx; E])) (vneg (adv 1%nat F [n; mx; E]))
    (vneg (adv 2%nat F [n; mx; E])) HF) as (a & b & e & R1 & R2).
  exists F, a, b, e. split; [exact R1|]. split; [exact HFb|]. exact R2.
Qed.
End Rhs.
