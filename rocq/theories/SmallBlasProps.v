(** C68: the small BLAS kernels. *)
From Coq Require Import List Arith ZArith Bool Lia.
From Verif Require Import SmallBlasModel SmallBlasSpec SmallBlasProofs.
Import ListNotations.

Section Scalar.
Variable T : Type.
Variables (zero : T) (add sub mul : T -> T -> T).
Notation inner := (inner T zero add mul).
Notation entry := (entry T zero).
Notation block_updated := (block_updated T zero add sub).

Lemma inner_ext n x y x' y' : (forall k, k < n -> x k = x' k) -> (forall k, k < n -> y k = y' k) ->
  inner n x y = inner n x' y'.
Proof.
  induction n as [|n IH]; intros H1 H2; [reflexivity|]. cbn.
  rewrite IH, H1, H2 by (intros; auto; try lia; try (apply H1; lia); apply H2; lia). reflexivity.
Qed.

Lemma agrees_dim k num : agrees k num -> dim k num = num.
Proof. intros [->| ->]; reflexivity. Qed.

(** C op= A * B.  A, B and C may be parts of larger arrays: only the entries of A and B
    and the written block have to be there. *)
Theorem matrix_matrix kRA kCA kRB kCB op A ra ca B cb C sr sc rs cs :
  agrees kRA ra -> agrees kCA ca -> agrees kRB ca -> agrees kCB cb ->
  ra * ca <= length A -> ca * cb <= length B -> sc + cb <= cs ->
  (forall i j, i < ra -> j < cb -> (i + sr) * cs + (j + sc) < length C) ->
  exists C', MatrixMatrixMultiplyNaive T zero add sub mul kRA kCA kRB kCB op A ra ca B ca cb C sr sc rs cs = Some C'
  /\ block_updated op (fun i j => inner ca (fun k => entry A ca i k) (fun k => entry B cb k j)) ra cb sr sc cs C C'.
Proof.
  intros H1 H2 H3 H4 LA LB Hc LC. unfold MatrixMatrixMultiplyNaive.
  rewrite (agrees_dim _ _ H1), (agrees_dim _ _ H2), (agrees_dim _ _ H4).
  set (v := fun i j => inner ca (fun k => entry A ca i k) (fun k => entry B cb k j)).
  assert (Hlen : forall i j, i < ra -> j < cb -> (i + sr) * cs + sc + j < length C) by (intros i j Hi Hj; specialize (LC i j Hi Hj); lia).
  assert (RA : forall i k, i < ra -> k < ca -> i * ca + k < length A) by (intros; nia).
  assert (RB : forall k j, k < ca -> j < cb -> k * cb + j < length B) by (intros; nia).
  edestruct (lanes_inv T zero add sub mul op v ra cb sr sc cs C Hc) as (C' & E & HI).
  4: { exists C'. split; [exact E|]. apply Inv_updated; [exact Hc|exact HI]. }
  - intros j W D Hj HD Hw. eapply (rows_inv T zero add sub mul op v ra cb sr sc cs C Hc W D j 1 _ HD).
    + intros i b Hb. replace b with j by lia. apply Hw.
    + intros i W' D' Hi HD' Hw'. rewrite dot1_spec.
      * destruct (store_inv T zero add sub op v ra cb sr sc cs C Hc Hlen W' D' i j ((i + sr) * cs + sc + j)
          (inner ca (fun k => nth (i * ca + k * 1) A zero) (fun k => nth (j + k * cb) B zero)) HD' Hi Hj) as (D'' & E & H'').
        -- apply Hw'; lia.
        -- reflexivity.
        -- unfold v, SmallBlasSpec.entry. apply inner_ext; intros; f_equal; lia.
        -- exists D''. split; [exact E|]. eapply Inv_ext; [exact H''|]. intros a b Ha Hb. split.
           ++ intros [K|[-> ->]]; [left; exact K|right; lia].
           ++ intros [K|[-> K]]; [left; exact K|right; lia].
      * intros k Hk. pose proof (RA i k Hi Hk). pose proof (RB k j Hk Hj). lia.
  - intros j W D Hj HD Hw. eapply (rows_inv T zero add sub mul op v ra cb sr sc cs C Hc W D j 2 _ HD Hw).
    intros i W' D' Hi HD' Hw'. rewrite dot2_spec.
    + apply (store2_inv T zero add sub op v ra cb sr sc cs C Hc Hlen W' D' i j); try assumption; try reflexivity.
      * unfold v, SmallBlasSpec.entry. apply inner_ext; intros; f_equal; lia.
      * unfold v, SmallBlasSpec.entry. apply inner_ext; intros; f_equal; lia.
    + intros k Hk. pose proof (RA i k Hi Hk). pose proof (RB k (j + 1) Hk Hj). lia.
  - intros q W D Hq HD Hw. eapply (rows_inv T zero add sub mul op v ra cb sr sc cs C Hc W D (q * 4) 4 _ HD Hw).
    intros i W' D' Hi HD' Hw'. unfold MMM_mat1x4.
    destruct (kernel_spec T zero add mul (MMM_mul T add mul A B (i * ca) (q * 4) cb) ca 0 0 1 cb
      (fun _ k => nth (i * ca + k) A zero) (fun l k => nth (q * 4 + k * cb + l) B zero)) as (p' & q' & E).
    + intros k c Hk. unfold MMM_mul. pose proof (RA i k Hi Hk). pose proof (RB k (q * 4 + 3) Hk ltac:(lia)).
      rewrite !(nth_error_nth_z T zero) by lia. rewrite !Nat.add_0_l, Nat.mul_1_r, Nat.add_0_r. reflexivity.
    + rewrite E. apply (store4_inv T zero add sub mul op v ra cb sr sc cs C Hc Hlen W' D' i (q * 4)); try assumption; try reflexivity;
      unfold v, SmallBlasSpec.entry; apply inner_ext; intros; f_equal; lia.
Qed.

(** C op= A' * B. *)
Theorem matrix_transpose_matrix kRA kCA kRB kCB op A ra ca B cb C sr sc rs cs :
  agrees kRA ra -> agrees kCA ca -> agrees kRB ra -> agrees kCB cb ->
  ra * ca <= length A -> ra * cb <= length B -> sc + cb <= cs ->
  (forall i j, i < ca -> j < cb -> (i + sr) * cs + (j + sc) < length C) ->
  exists C', MatrixTransposeMatrixMultiplyNaive T zero add sub mul kRA kCA kRB kCB op A ra ca B ra cb C sr sc rs cs = Some C'
  /\ block_updated op (fun i j => inner ra (fun k => entry A ca k i) (fun k => entry B cb k j)) ca cb sr sc cs C C'.
Proof.
  intros H1 H2 H3 H4 LA LB Hc LC. unfold MatrixTransposeMatrixMultiplyNaive.
  rewrite (agrees_dim _ _ H1), (agrees_dim _ _ H2), (agrees_dim _ _ H4).
  set (v := fun i j => inner ra (fun k => entry A ca k i) (fun k => entry B cb k j)).
  assert (Hlen : forall i j, i < ca -> j < cb -> (i + sr) * cs + sc + j < length C) by (intros i j Hi Hj; specialize (LC i j Hi Hj); lia).
  assert (RA : forall k i, k < ra -> i < ca -> k * ca + i < length A) by (intros; nia).
  assert (RB : forall k j, k < ra -> j < cb -> k * cb + j < length B) by (intros; nia).
  edestruct (lanes_inv T zero add sub mul op v ca cb sr sc cs C Hc) as (C' & E & HI).
  4: { exists C'. split; [exact E|]. apply Inv_updated; [exact Hc|exact HI]. }
  - intros j W D Hj HD Hw. eapply (rows_inv T zero add sub mul op v ca cb sr sc cs C Hc W D j 1 _ HD).
    + intros i b Hb. replace b with j by lia. apply Hw.
    + intros i W' D' Hi HD' Hw'. rewrite dot1_spec.
      * destruct (store_inv T zero add sub op v ca cb sr sc cs C Hc Hlen W' D' i j ((i + sr) * cs + sc + j)
          (inner ra (fun k => nth (i + k * ca) A zero) (fun k => nth (j + k * cb) B zero)) HD' Hi Hj) as (D'' & E & H'').
        -- apply Hw'; lia.
        -- reflexivity.
        -- unfold v, SmallBlasSpec.entry. apply inner_ext; intros; f_equal; lia.
        -- exists D''. split; [exact E|]. eapply Inv_ext; [exact H''|]. intros a b Ha Hb. split.
           ++ intros [K|[-> ->]]; [left; exact K|right; lia].
           ++ intros [K|[-> K]]; [left; exact K|right; lia].
      * intros k Hk. pose proof (RA k i Hk Hi). pose proof (RB k j Hk Hj). lia.
  - intros j W D Hj HD Hw. eapply (rows_inv T zero add sub mul op v ca cb sr sc cs C Hc W D j 2 _ HD Hw).
    intros i W' D' Hi HD' Hw'. rewrite dot2_spec.
    + apply (store2_inv T zero add sub op v ca cb sr sc cs C Hc Hlen W' D' i j); try assumption; try reflexivity.
      * unfold v, SmallBlasSpec.entry. apply inner_ext; intros; f_equal; lia.
      * unfold v, SmallBlasSpec.entry. apply inner_ext; intros; f_equal; lia.
    + intros k Hk. pose proof (RA k i Hk Hi). pose proof (RB k (j + 1) Hk Hj). lia.
  - intros q W D Hq HD Hw. eapply (rows_inv T zero add sub mul op v ca cb sr sc cs C Hc W D (q * 4) 4 _ HD Hw).
    intros i W' D' Hi HD' Hw'. unfold MTM_mat1x4.
    destruct (kernel_spec T zero add mul (MTM_mul T add mul A B i ca (q * 4) cb) ra 0 0 ca cb
      (fun _ k => nth (i + k * ca) A zero) (fun l k => nth (q * 4 + k * cb + l) B zero)) as (p' & q' & E).
    + intros k c Hk. unfold MTM_mul. pose proof (RA k i Hk Hi). pose proof (RB k (q * 4 + 3) Hk ltac:(lia)).
      rewrite !(nth_error_nth_z T zero) by lia. rewrite !Nat.add_0_l, Nat.add_0_r. reflexivity.
    + rewrite E. apply (store4_inv T zero add sub mul op v ca cb sr sc cs C Hc Hlen W' D' i (q * 4)); try assumption; try reflexivity;
      unfold v, SmallBlasSpec.entry; apply inner_ext; intros; f_equal; lia.
Qed.

(** c op= A * b: c has at least ra entries, the others stay. *)
Theorem matrix_vector kRA kCA op A ra ca b c :
  agrees kRA ra -> agrees kCA ca ->
  ra * ca <= length A -> ca <= length b -> ra <= length c ->
  exists c', MatrixVectorMultiply T zero add sub mul kRA kCA op A ra ca b c = Some c'
  /\ length c' = length c
  /\ (forall i, ra <= i -> nth_error c' i = nth_error c i)
  /\ forall i, i < ra -> nth_error c' i
       = Some (apply_op T add sub op (nth i c zero) (inner ca (fun k => entry A ca i k) (fun k => nth k b zero))).
Proof.
  intros H1 H2 LA LB LC. unfold MatrixVectorMultiply.
  rewrite (agrees_dim _ _ H1), (agrees_dim _ _ H2).
  set (v := fun (_ : nat) j => inner ca (fun k => entry A ca j k) (fun k => nth k b zero)).
  assert (Hc : 0 + ra <= ra) by lia.
  assert (Hlen : forall i j, i < 1 -> j < ra -> (i + 0) * ra + 0 + j < length c) by (intros; nia).
  assert (RA : forall i k, i < ra -> k < ca -> i * ca + k < length A) by (intros; nia).
  assert (X : exists c', lanes T ra
    (fun row c => match dot1 T zero add mul A b ca (row * ca) 1 0 1 with
                  | Some tmp => store T add sub op c row tmp | None => None end)
    (fun row c => match dot2 T zero add mul A b ca (row * ca) 1 ca 0 1 0 with
                  | Some (t1, t2) => store2 T add sub op c row t1 t2 | None => None end)
    (fun c => for_ (round4 ra / 4) (fun q c =>
       MVM_mat4x1 T zero add sub mul ca A (q * 4 * ca) ca b c (q * 4) op) c) c = Some c'
    /\ Inv T zero add sub op v 1 ra 0 0 ra c (fun _ _ => True) c').
  - apply (lanes_inv T zero add sub mul op v 1 _ 0 0 _ c Hc).
    + intros j W D Hj HD Hw. rewrite dot1_spec.
      * edestruct (store_inv T zero add sub op v 1 ra 0 0 ra c Hc Hlen W D 0 j j (v 0 j) HD) as (D'' & E & H'').
        -- lia.
        -- exact Hj.
        -- apply Hw.
        -- unfold pos; lia.
        -- reflexivity.
        -- exists D''. split.
           ++ rewrite <- E. f_equal. unfold v. apply inner_ext; intros; unfold SmallBlasSpec.entry; f_equal; lia.
           ++ eapply Inv_ext; [exact H''|]. intros a b' Ha Hb. split.
              ** intros [K|[-> ->]]; [left; exact K|right; lia].
              ** intros [K|K]; [left; exact K|right; lia].
      * intros k Hk. pose proof (RA j k Hj Hk). lia.
    + intros j W D Hj HD Hw. rewrite dot2_spec.
      * edestruct (store2_inv T zero add sub op v 1 ra 0 0 ra c Hc Hlen W D 0 j j) as (D'' & E & H'');
          [exact HD|lia|exact Hj|intros; apply Hw; assumption|unfold pos; lia|reflexivity|reflexivity|].
        exists D''. split.
        -- rewrite <- E. unfold v. f_equal; apply inner_ext; intros; unfold SmallBlasSpec.entry; f_equal; lia.
        -- eapply Inv_ext; [exact H''|]. intros a b' Ha Hb. split.
           ++ intros [K|[-> K]]; [left; exact K|right; lia].
           ++ intros [K|K]; [left; exact K|right; lia].
      * intros k Hk. pose proof (RA j k ltac:(lia) Hk). pose proof (RA (j + 1) k Hj Hk). lia.
    + intros q W D Hq HD Hw. unfold MVM_mat4x1.
      destruct (kernel_spec T zero add mul (MVM_mul T add mul A b ca) ca (q * 4 * ca) 0 1 1
        (fun l k => nth (q * 4 * ca + k + ca * l) A zero) (fun _ k => nth k b zero)) as (p' & q' & E).
      * intros k cc Hk. unfold MVM_mul.
        pose proof (RA (q * 4) k ltac:(lia) Hk). pose proof (RA (q * 4 + 3) k Hq Hk).
        rewrite !(nth_error_nth_z T zero) by lia. rewrite !Nat.add_0_l, !Nat.mul_1_r, Nat.mul_0_r, Nat.add_0_r. reflexivity.
      * rewrite E.
        edestruct (store4_inv T zero add sub mul op v 1 ra 0 0 ra c Hc Hlen W D 0 (q * 4) (q * 4)) as (D'' & E' & H'');
          [exact HD|lia|exact Hq|intros; apply Hw; assumption|unfold pos; lia|reflexivity|reflexivity|reflexivity|reflexivity|].
        exists D''. split.
        -- rewrite <- E'. unfold v. f_equal. f_equal; [f_equal; [f_equal|]|]; apply inner_ext; intros; unfold SmallBlasSpec.entry; f_equal; lia.
        -- eapply Inv_ext; [exact H''|]. intros a b' Ha Hb. split.
           ++ intros [K|[-> K]]; [left; exact K|right; lia].
           ++ intros [K|K]; [left; exact K|right; lia].
  - destruct X as (c' & E & (L & P & Q)). exists c'. split; [exact E|]. split; [lia|].
    split; [intros i Hi; apply Q; intros a b' Ha Hb _; unfold pos; nia|].
    intros i Hi. specialize (P 0 i ltac:(lia) Hi I). unfold pos, new, pos in P. exact P.
Qed.

(** c op= A' * b. *)
Theorem matrix_transpose_vector kRA kCA op A ra ca b c :
  agrees kRA ra -> agrees kCA ca ->
  ra * ca <= length A -> ra <= length b -> ca <= length c ->
  exists c', MatrixTransposeVectorMultiply T zero add sub mul kRA kCA op A ra ca b c = Some c'
  /\ length c' = length c
  /\ (forall i, ca <= i -> nth_error c' i = nth_error c i)
  /\ forall i, i < ca -> nth_error c' i
       = Some (apply_op T add sub op (nth i c zero) (inner ra (fun k => entry A ca k i) (fun k => nth k b zero))).
Proof.
  intros H1 H2 LA LB LC. unfold MatrixTransposeVectorMultiply.
  rewrite (agrees_dim _ _ H1), (agrees_dim _ _ H2).
  set (v := fun (_ : nat) j => inner ra (fun k => entry A ca k j) (fun k => nth k b zero)).
  assert (Hc : 0 + ca <= ca) by lia.
  assert (Hlen : forall i j, i < 1 -> j < ca -> (i + 0) * ca + 0 + j < length c) by (intros; nia).
  assert (RA : forall k i, k < ra -> i < ca -> k * ca + i < length A) by (intros; nia).
  assert (X : exists c', lanes T ca
    (fun row c => match dot1 T zero add mul A b ra row ca 0 1 with
                  | Some tmp => store T add sub op c row tmp | None => None end)
    (fun row c => match dot2 T zero add mul A b ra row ca 1 0 1 0 with
                  | Some (t1, t2) => store2 T add sub op c row t1 t2 | None => None end)
    (fun c => for_ (round4 ca / 4) (fun q c =>
       MTV_mat4x1 T zero add sub mul ra A (q * 4) ca b c (q * 4) op) c) c = Some c'
    /\ Inv T zero add sub op v 1 ca 0 0 ca c (fun _ _ => True) c').
  - apply (lanes_inv T zero add sub mul op v 1 _ 0 0 _ c Hc).
    + intros j W D Hj HD Hw. rewrite dot1_spec.
      * edestruct (store_inv T zero add sub op v 1 ca 0 0 ca c Hc Hlen W D 0 j j (v 0 j) HD) as (D'' & E & H'').
        -- lia.
        -- exact Hj.
        -- apply Hw.
        -- unfold pos; lia.
        -- reflexivity.
        -- exists D''. split.
           ++ rewrite <- E. f_equal. unfold v. apply inner_ext; intros; unfold SmallBlasSpec.entry; f_equal; lia.
           ++ eapply Inv_ext; [exact H''|]. intros a b' Ha Hb. split.
              ** intros [K|[-> ->]]; [left; exact K|right; lia].
              ** intros [K|K]; [left; exact K|right; lia].
      * intros k Hk. pose proof (RA k j Hk Hj). lia.
    + intros j W D Hj HD Hw. rewrite dot2_spec.
      * edestruct (store2_inv T zero add sub op v 1 ca 0 0 ca c Hc Hlen W D 0 j j) as (D'' & E & H'');
          [exact HD|lia|exact Hj|intros; apply Hw; assumption|unfold pos; lia|reflexivity|reflexivity|].
        exists D''. split.
        -- rewrite <- E. unfold v. f_equal; apply inner_ext; intros; unfold SmallBlasSpec.entry; f_equal; lia.
        -- eapply Inv_ext; [exact H''|]. intros a b' Ha Hb. split.
           ++ intros [K|[-> K]]; [left; exact K|right; lia].
           ++ intros [K|K]; [left; exact K|right; lia].
      * intros k Hk. pose proof (RA k (j + 1) Hk Hj). lia.
    + intros q W D Hq HD Hw. unfold MTV_mat4x1.
      destruct (kernel_spec T zero add mul (MTV_mul T add mul A b ca) ra (q * 4) 0 ca 1
        (fun l k => nth (q * 4 + k * ca + l) A zero) (fun _ k => nth k b zero)) as (p' & q' & E).
      * intros k cc Hk. unfold MTV_mul. pose proof (RA k (q * 4 + 3) Hk Hq).
        rewrite !(nth_error_nth_z T zero) by lia. rewrite !Nat.add_0_l, !Nat.mul_1_r, Nat.add_0_r. reflexivity.
      * rewrite E.
        edestruct (store4_inv T zero add sub mul op v 1 ca 0 0 ca c Hc Hlen W D 0 (q * 4) (q * 4)) as (D'' & E' & H'');
          [exact HD|lia|exact Hq|intros; apply Hw; assumption|unfold pos; lia|reflexivity|reflexivity|reflexivity|reflexivity|].
        exists D''. split.
        -- rewrite <- E'. unfold v. f_equal. f_equal; [f_equal; [f_equal|]|]; apply inner_ext; intros; unfold SmallBlasSpec.entry; f_equal; lia.
        -- eapply Inv_ext; [exact H''|]. intros a b' Ha Hb. split.
           ++ intros [K|[-> K]]; [left; exact K|right; lia].
           ++ intros [K|K]; [left; exact K|right; lia].
  - destruct X as (c' & E & (L & P & Q)). exists c'. split; [exact E|]. split; [lia|].
    split; [intros i Hi; apply Q; intros a b' Ha Hb _; unfold pos; nia|].
    intros i Hi. specialize (P 0 i ltac:(lia) Hi I). unfold pos, new, pos in P. exact P.
Qed.

(** Which sizes are compile-time constants makes no difference. *)
Theorem sizes_irrelevant kRA kCA kRB kCB op A ra ca B rb cb C sr sc rs cs :
  agrees kRA ra -> agrees kCA ca -> agrees kRB rb -> agrees kCB cb ->
  MatrixMatrixMultiplyNaive T zero add sub mul kRA kCA kRB kCB op A ra ca B rb cb C sr sc rs cs
    = MatrixMatrixMultiplyNaive T zero add sub mul None None None None op A ra ca B rb cb C sr sc rs cs
  /\ MatrixTransposeMatrixMultiplyNaive T zero add sub mul kRA kCA kRB kCB op A ra ca B rb cb C sr sc rs cs
    = MatrixTransposeMatrixMultiplyNaive T zero add sub mul None None None None op A ra ca B rb cb C sr sc rs cs
  /\ MatrixVectorMultiply T zero add sub mul kRA kCA op A ra ca B C
    = MatrixVectorMultiply T zero add sub mul None None op A ra ca B C
  /\ MatrixTransposeVectorMultiply T zero add sub mul kRA kCA op A ra ca B C
    = MatrixTransposeVectorMultiply T zero add sub mul None None op A ra ca B C.
Proof.
  intros H1 H2 H3 H4.
  unfold MatrixMatrixMultiplyNaive, MatrixTransposeMatrixMultiplyNaive, MatrixVectorMultiply, MatrixTransposeVectorMultiply.
  rewrite (agrees_dim _ _ H1), (agrees_dim _ _ H2), (agrees_dim _ _ H4).
  split; [reflexivity|]. split; [reflexivity|]. split; reflexivity.
Qed.
End Scalar.
Print Assumptions matrix_matrix.
Print Assumptions matrix_transpose_matrix.
Print Assumptions matrix_vector.
Print Assumptions matrix_transpose_vector.
Print Assumptions sizes_irrelevant.

(** Integers: a 2 x 3 times 3 x 7 product (all three groups of lanes) placed at
    (1, 2) of a 4 x 10 matrix of ones, subtracted. *)
Definition A23 := [1; 2; 3; 4; 5; 6]%Z.
Definition B37 := map Z.of_nat (seq 0 21).
Example ex_matrix_matrix :
  MatrixMatrixMultiplyNaive Z 0%Z Z.add Z.sub Z.mul None (Some 3) None None (-1) A23 2 3 B37 3 7 (repeat 1%Z 40) 1 2 4 10
  = Some (repeat 1%Z 12 ++ map (fun j => (1 - (j + 2 * (7 + j) + 3 * (14 + j)))%Z) [0; 1; 2; 3; 4; 5; 6]%Z ++ repeat 1%Z 3
          ++ map (fun j => (1 - (4 * j + 5 * (7 + j) + 6 * (14 + j)))%Z) [0; 1; 2; 3; 4; 5; 6]%Z ++ repeat 1%Z 11).
Proof. reflexivity. Qed.
Example ex_transpose :
  MatrixTransposeMatrixMultiplyNaive Z 0%Z Z.add Z.sub Z.mul None None None None 1 A23 2 3 [1; 0; 0; 1]%Z 2 2 (repeat 1%Z 6) 0 0 3 2
  = Some [2; 5; 3; 6; 4; 7]%Z.
Proof. reflexivity. Qed.
Example ex_vector :
  MatrixVectorMultiply Z 0%Z Z.add Z.sub Z.mul None None 0 (B37) 7 3 [1; 1; 2]%Z (repeat 9%Z 7) = Some [5; 17; 29; 41; 53; 65; 77]%Z
  /\ MatrixTransposeVectorMultiply Z 0%Z Z.add Z.sub Z.mul None None 0 B37 3 7 [1; 1; 2]%Z (repeat 9%Z 7) = Some [35; 39; 43; 47; 51; 55; 59]%Z.
Proof. split; reflexivity. Qed.
