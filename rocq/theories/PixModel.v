(** Model of elphmod/plot.py:203-220 (arrange) and 436-472 (adjust_pixels).

    Simplifications: rational numbers in place of floats; images have two axes only:
    further axes (colors) are treated element by element by the code. The square root of
    the number of images is not rounded before it is truncated. *)
From Verif Require Import Common LinModel StackModel Text.
Local Open Scope nat_scope.

Record image (A : Type) := Img { height : nat; width : nat; pixel : nat -> nat -> A }.
Arguments Img {A}. Arguments height {A}. Arguments width {A}. Arguments pixel {A}.

(** np.concatenate for two arrays, and for a list of arrays *)
Definition beside {A} (a b : image A) : res (image A) :=
  if height a =? height b then Ok (Img (height a) (width a + width b) (fun y x => if x <? width a then pixel a y x else pixel b y (x - width a)))
  else Raise ValueError.
Definition below {A} (a b : image A) : res (image A) :=
  if width a =? width b then Ok (Img (height a + height b) (width a) (fun y x => if y <? height a then pixel a y x else pixel b (y - height a) x))
  else Raise ValueError.
Fixpoint join {A} (op : A -> A -> res A) (a : A) (l : list A) : res A :=
  match l with [] => Ok a | b :: l => do c <- op a b ;; join op c l end.
Definition concatenate {A} (op : A -> A -> res A) (l : list A) : res A :=
  match l with [] => Raise ValueError | a :: l => join op a l end.

(** plot.py:207-209: while len(images) % columns: columns += 1 *)
Fixpoint next_divisor (fuel : nat) (n columns : Z) : res Z :=
  match fuel with
  | O => Ok columns
  | S fuel =>
      if (columns =? 0)%Z then Raise ZeroDivisionError
      else if (n mod columns =? 0)%Z then Ok columns else next_divisor fuel n (columns + 1)
  end.

(** Nonnegative slice l[i:j] *)
Definition slice {A} (i j : Z) (l : list A) : list A := firstn (Z.to_nat (j - i)) (skipn (Z.to_nat i) l).

(** plot.py:203-220 *)
Definition arrange {A} (images : list (image A)) (columns : option Z) : res (image A) :=
  let n := Z.of_nat (length images) in
  let columns := match columns with None => Z.sqrt n | Some c => c end in
  do columns <- (if (columns <? n)%Z then next_divisor (Z.to_nat (n - columns)) n columns else Ok n) ;;
  if (columns =? 0)%Z then Raise ZeroDivisionError else
  let rows := (n / columns)%Z in
  do parts <- collect (fun row => concatenate beside (slice (columns * Z.of_nat row) (columns * (Z.of_nat row + 1)) images)) (seq 0 (Z.to_nat rows)) ;;
  concatenate below parts.

(** plot.py:457-459; [distances[-1] = distances[0]] leads to a division by zero (infinity
    or NaN), the conversion of which to an integer is undefined: an exception here. *)
Definition new_points (distances : list Q) (width : nat) : res (list Z) :=
  match distances with
  | [] => Raise IndexError
  | d0 :: _ =>
      let distances := map (fun d => d - d0)%Q distances in
      let total := last distances 0%Q in
      if Qeq_bool total 0 then Raise OverflowError
      else Ok (map (fun d => let r := (d / total * inject_Z (Z.of_nat width - 1))%Q in round_div (Qnum r) (Zpos (Qden r))) distances)
  end.

(** new_image[:, a:b + 1] = block, for [0 <= a]; the block has [h] rows and [w] columns,
    stored row by row. *)
Definition assign_block (new : nat -> nat -> option Q) (h width : nat) (a b : Z) (w : nat) (block : list Q) : res (nat -> nat -> option Q) :=
  if (Z.min (b + 1) (Z.of_nat width) - a =? Z.of_nat w)%Z then
    Ok (fun y x => if ((y <? h) && (Z.to_nat a <=? x) && (x <? Z.to_nat a + w)) then Some (nth (y * w + (x - Z.to_nat a)) block 0%Q) else new y x)
  else Raise ValueError.

(** plot.py:466-470 for points and new points one after the other; [points] count from
    zero *)
Fixpoint blocks argsort (image : list (list Q)) (h width : nat) (points : list nat) (news : list Z) (new : nat -> nat -> option Q) : res (nat -> nat -> option Q) :=
  match points, news with
  | p :: ((p' :: _) as points), q :: ((q' :: _) as news) =>
      let part := map (fun row => firstn (p' + 1 - p) (skipn p row)) image in
      if ((q' - q + 1 <? 0) || (q <? 0))%Z then Raise ValueError else
      let w := Z.to_nat (q' - q + 1) in
      do block <- resize2 argsort 90 None false part h w ;;
      do new <- assign_block new h width q q' w block ;;
      blocks argsort image h width points news new
  | _ :: _ :: _, _ => Raise IndexError
  | _, _ => Ok new
  end.

(** plot.py:436-472 *)
Definition adjust_pixels argsort (image : list (list Q)) (points : list nat) (distances : list Q) (width : nat) (height : option nat) : res (nat -> nat -> option Q) :=
  do news <- new_points distances width ;;
  let h := match height with Some h => h | None => length image end in
  blocks argsort image h width points news (fun _ _ => None).
