(* Transcription of e3nn_jax/_src/J.py:6-2186 (generated by tools/mkjtables.py): the entry n * sqrt(s) / d is written (n, d, s). *)
From Coq Require Import ZArith List.
Import ListNotations.
Open Scope Z_scope.
Local Notation o := (0, 1, 1) (only parsing).
Definition J0 : list (list (Z * Z * Z)) := [
   [(1, 1, 1)]].
Definition J1 : list (list (Z * Z * Z)) := [
   [o; (-1, 1, 1); o];
   [(-1, 1, 1); o; o];
   [o; o; (1, 1, 1)]].
Definition J2 : list (list (Z * Z * Z)) := [
   [o; o; o; (-1, 1, 1); o];
   [o; (1, 1, 1); o; o; o];
   [o; o; (-1, 2, 1); o; (-1, 2, 3)];
   [(-1, 1, 1); o; o; o; o];
   [o; o; (-1, 2, 3); o; (1, 2, 1)]].
Definition J3 : list (list (Z * Z * Z)) := [
   [o; o; o; (1, 4, 10); o; (-1, 4, 6); o];
   [o; (1, 1, 1); o; o; o; o; o];
   [o; o; o; (1, 4, 6); o; (1, 4, 10); o];
   [(1, 4, 10); o; (1, 4, 6); o; o; o; o];
   [o; o; o; o; (-1, 4, 1); o; (-1, 4, 15)];
   [(-1, 4, 6); o; (1, 4, 10); o; o; o; o];
   [o; o; o; o; (-1, 4, 15); o; (1, 4, 1)]].
Definition J4 : list (list (Z * Z * Z)) := [
   [o; o; o; o; o; (1, 4, 14); o; (-1, 4, 2); o];
   [o; (3, 4, 1); o; (-1, 4, 7); o; o; o; o; o];
   [o; o; o; o; o; (1, 4, 2); o; (1, 4, 14); o];
   [o; (-1, 4, 7); o; (-3, 4, 1); o; o; o; o; o];
   [o; o; o; o; (3, 8, 1); o; (1, 4, 5); o; (1, 8, 35)];
   [(1, 4, 14); o; (1, 4, 2); o; o; o; o; o; o];
   [o; o; o; o; (1, 4, 5); o; (1, 2, 1); o; (-1, 4, 7)];
   [(-1, 4, 2); o; (1, 4, 14); o; o; o; o; o; o];
   [o; o; o; o; (1, 8, 35); o; (-1, 4, 7); o; (1, 8, 1)]].
Definition J5 : list (list (Z * Z * Z)) := [
   [o; o; o; o; o; (-3, 16, 14); o; (1, 8, 30); o; (-1, 16, 10); o];
   [o; (1, 2, 1); o; (-1, 2, 3); o; o; o; o; o; o; o];
   [o; o; o; o; o; (-1, 16, 70); o; (-1, 8, 6); o; (9, 16, 2); o];
   [o; (-1, 2, 3); o; (-1, 2, 1); o; o; o; o; o; o; o];
   [o; o; o; o; o; (-1, 8, 15); o; (-1, 4, 7); o; (-1, 8, 21); o];
   [(-3, 16, 14); o; (-1, 16, 70); o; (-1, 8, 15); o; o; o; o; o; o];
   [o; o; o; o; o; o; (1, 8, 1); o; (1, 16, 42); o; (1, 16, 210)];
   [(1, 8, 30); o; (-1, 8, 6); o; (-1, 4, 7); o; o; o; o; o; o];
   [o; o; o; o; o; o; (1, 16, 42); o; (13, 16, 1); o; (-3, 16, 5)];
   [(-1, 16, 10); o; (9, 16, 2); o; (-1, 8, 21); o; o; o; o; o; o];
   [o; o; o; o; o; o; (1, 16, 210); o; (-3, 16, 5); o; (1, 16, 1)]].
Definition J6 : list (list (Z * Z * Z)) := [
   [o; o; o; o; o; o; o; (-3, 16, 22); o; (1, 16, 55); o; (-1, 16, 3); o];
   [o; (5, 16, 1); o; (-1, 16, 165); o; (1, 16, 66); o; o; o; o; o; o; o];
   [o; o; o; o; o; o; o; (-1, 4, 3); o; (-1, 8, 30); o; (1, 8, 22); o];
   [o; (-1, 16, 165); o; (1, 16, 1); o; (3, 16, 10); o; o; o; o; o; o; o];
   [o; o; o; o; o; o; o; (-1, 16, 10); o; (-9, 16, 1); o; (-1, 16, 165); o];
   [o; (1, 16, 66); o; (3, 16, 10); o; (5, 8, 1); o; o; o; o; o; o; o];
   [o; o; o; o; o; o; (-5, 16, 1); o; (-1, 32, 210); o; (-3, 16, 7); o; (-1, 32, 462)];
   [(-3, 16, 22); o; (-1, 4, 3); o; (-1, 16, 10); o; o; o; o; o; o; o; o];
   [o; o; o; o; o; o; (-1, 32, 210); o; (-17, 32, 1); o; (-1, 32, 30); o; (3, 32, 55)];
   [(1, 16, 55); o; (-1, 8, 30); o; (-9, 16, 1); o; o; o; o; o; o; o; o];
   [o; o; o; o; o; o; (-3, 16, 7); o; (-1, 32, 30); o; (13, 16, 1); o; (-1, 32, 66)];
   [(-1, 16, 3); o; (1, 8, 22); o; (-1, 16, 165); o; o; o; o; o; o; o; o];
   [o; o; o; o; o; o; (-1, 32, 462); o; (3, 32, 55); o; (-1, 32, 66); o; (1, 32, 1)]].
Definition J7 : list (list (Z * Z * Z)) := [
   [o; o; o; o; o; o; o; (1, 32, 429); o; (-1, 64, 2002); o; (1, 32, 91); o; (-1, 64, 14); o];
   [o; (3, 16, 1); o; (-1, 8, 26); o; (1, 16, 143); o; o; o; o; o; o; o; o; o];
   [o; o; o; o; o; o; o; (1, 32, 231); o; (1, 64, 22); o; (-25, 32, 1); o; (5, 64, 26); o];
   [o; (-1, 8, 26); o; (1, 2, 1); o; (1, 8, 22); o; o; o; o; o; o; o; o; o];
   [o; o; o; o; o; o; o; (3, 32, 21); o; (19, 64, 2); o; (-1, 32, 11); o; (-3, 64, 286); o];
   [o; (1, 16, 143); o; (1, 8, 22); o; (5, 16, 1); o; o; o; o; o; o; o; o; o];
   [o; o; o; o; o; o; o; (5, 32, 7); o; (15, 64, 6); o; (3, 32, 33); o; (1, 64, 858); o];
   [(1, 32, 429); o; (1, 32, 231); o; (3, 32, 21); o; (5, 32, 7); o; o; o; o; o; o; o; o];
   [o; o; o; o; o; o; o; o; (-5, 64, 1); o; (-9, 64, 3); o; (-5, 64, 33); o; (-1, 64, 3003)];
   [(-1, 64, 2002); o; (1, 64, 22); o; (19, 64, 2); o; (15, 64, 6); o; o; o; o; o; o; o; o];
   [o; o; o; o; o; o; o; o; (-9, 64, 3); o; (-39, 64, 1); o; (-11, 64, 11); o; (1, 64, 1001)];
   [(1, 32, 91); o; (-25, 32, 1); o; (-1, 32, 11); o; (3, 32, 33); o; o; o; o; o; o; o; o];
   [o; o; o; o; o; o; o; o; (-5, 64, 33); o; (-11, 64, 11); o; (43, 64, 1); o; (-1, 64, 91)];
   [(-1, 64, 14); o; (5, 64, 26); o; (-3, 64, 286); o; (1, 64, 858); o; o; o; o; o; o; o; o];
   [o; o; o; o; o; o; o; o; (-1, 64, 3003); o; (1, 64, 1001); o; (-1, 64, 91); o; (1, 64, 1)]].
Definition J8 : list (list (Z * Z * Z)) := [
   [o; o; o; o; o; o; o; o; o; (1, 32, 715); o; (-1, 32, 273); o; (1, 32, 35); o; (-1, 32, 1); o];
   [o; (7, 64, 1); o; (-5, 64, 35); o; (3, 64, 273); o; (-1, 64, 715); o; o; o; o; o; o; o; o; o];
   [o; o; o; o; o; o; o; o; o; (1, 64, 858); o; (1, 64, 910); o; (-7, 64, 42); o; (3, 64, 30); o];
   [o; (-5, 64, 35); o; (45, 64, 1); o; (1, 64, 195); o; (-1, 64, 1001); o; o; o; o; o; o; o; o; o];
   [o; o; o; o; o; o; o; o; o; (1, 32, 77); o; (5, 32, 15); o; (3, 32, 13); o; (-1, 32, 455); o];
   [o; (3, 64, 273); o; (1, 64, 195); o; (-17, 64, 1); o; (-1, 64, 1155); o; o; o; o; o; o; o; o; o];
   [o; o; o; o; o; o; o; o; o; (1, 64, 70); o; (3, 64, 66); o; (1, 64, 1430); o; (1, 64, 2002); o];
   [o; (-1, 64, 715); o; (-1, 64, 1001); o; (-1, 64, 1155); o; (-35, 64, 1); o; o; o; o; o; o; o; o; o];
   [o; o; o; o; o; o; o; o; (35, 128, 1); o; (3, 64, 70); o; (3, 64, 77); o; (1, 64, 858); o; (3, 128, 715)];
   [(1, 32, 715); o; (1, 64, 858); o; (1, 32, 77); o; (1, 64, 70); o; o; o; o; o; o; o; o; o; o];
   [o; o; o; o; o; o; o; o; (3, 64, 70); o; (1, 2, 1); o; (1, 32, 110); o; o; o; (-1, 64, 2002)];
   [(-1, 32, 273); o; (1, 64, 910); o; (5, 32, 15); o; (3, 64, 66); o; o; o; o; o; o; o; o; o; o];
   [o; o; o; o; o; o; o; o; (3, 64, 77); o; (1, 32, 110); o; (-9, 32, 1); o; (-1, 32, 546); o; (1, 64, 455)];
   [(1, 32, 35); o; (-7, 64, 42); o; (3, 32, 13); o; (1, 64, 1430); o; o; o; o; o; o; o; o; o; o];
   [o; o; o; o; o; o; o; o; (1, 64, 858); o; o; o; (-1, 32, 546); o; (1, 2, 1); o; (-1, 64, 30)];
   [(-1, 32, 1); o; (3, 64, 30); o; (-1, 32, 455); o; (1, 64, 2002); o; o; o; o; o; o; o; o; o; o];
   [o; o; o; o; o; o; o; o; (3, 128, 715); o; (-1, 64, 2002); o; (1, 64, 455); o; (-1, 64, 30); o; (1, 128, 1)]].
Definition J9 : list (list (Z * Z * Z)) := [
   [o; o; o; o; o; o; o; o; o; (-1, 256, 24310); o; (3, 64, 221); o; (-3, 128, 238); o; (1, 64, 51); o; (-3, 256, 2); o];
   [o; (1, 16, 1); o; (-1, 32, 102); o; (1, 16, 119); o; (-1, 32, 442); o; o; o; o; o; o; o; o; o; o; o];
   [o; o; o; o; o; o; o; o; o; (-3, 256, 1430); o; (1, 64, 13); o; (23, 128, 14); o; (-21, 64, 3); o; (7, 256, 34); o];
   [o; (-1, 32, 102); o; (23, 32, 1); o; (-1, 32, 42); o; (-3, 32, 39); o; o; o; o; o; o; o; o; o; o; o];
   [o; o; o; o; o; o; o; o; o; (-3, 128, 286); o; (-1, 32, 65); o; (3, 64, 70); o; (5, 32, 15); o; (-5, 128, 170); o];
   [o; (1, 16, 119); o; (-1, 32, 42); o; (-9, 16, 1); o; (-1, 32, 182); o; o; o; o; o; o; o; o; o; o; o];
   [o; o; o; o; o; o; o; o; o; (-1, 128, 2310); o; (-3, 32, 21); o; (-1, 64, 78); o; (1, 32, 91); o; (1, 128, 9282); o];
   [o; (-1, 32, 442); o; (-3, 32, 39); o; (-1, 32, 182); o; (-7, 32, 1); o; o; o; o; o; o; o; o; o; o; o];
   [o; o; o; o; o; o; o; o; o; (-21, 128, 5); o; (-7, 64, 22); o; (-1, 64, 1001); o; (-1, 64, 858); o; (-1, 128, 2431); o];
   [(-1, 256, 24310); o; (-3, 256, 1430); o; (-3, 128, 286); o; (-1, 128, 2310); o; (-21, 128, 5); o; o; o; o; o; o; o; o; o; o];
   [o; o; o; o; o; o; o; o; o; o; (7, 128, 1); o; (1, 128, 462); o; (1, 128, 1430); o; (7, 256, 286); o; (3, 256, 4862)];
   [(3, 64, 221); o; (1, 64, 13); o; (-1, 32, 65); o; (-3, 32, 21); o; (-7, 64, 22); o; o; o; o; o; o; o; o; o; o];
   [o; o; o; o; o; o; o; o; o; o; (1, 128, 462); o; (29, 64, 1); o; (1, 64, 1365); o; (3, 128, 273); o; (-1, 128, 4641)];
   [(-3, 128, 238); o; (23, 128, 14); o; (3, 64, 70); o; (-1, 64, 78); o; (-1, 64, 1001); o; o; o; o; o; o; o; o; o; o];
   [o; o; o; o; o; o; o; o; o; o; (1, 128, 1430); o; (1, 64, 1365); o; (9, 64, 1); o; (-41, 128, 5); o; (3, 128, 85)];
   [(1, 64, 51); o; (-21, 64, 3); o; (5, 32, 15); o; (1, 32, 91); o; (-1, 64, 858); o; o; o; o; o; o; o; o; o; o];
   [o; o; o; o; o; o; o; o; o; o; (7, 256, 286); o; (3, 128, 273); o; (-41, 128, 5); o; (89, 256, 1); o; (-3, 256, 17)];
   [(-3, 256, 2); o; (7, 256, 34); o; (-5, 128, 170); o; (1, 128, 9282); o; (-1, 128, 2431); o; o; o; o; o; o; o; o; o; o];
   [o; o; o; o; o; o; o; o; o; o; (3, 256, 4862); o; (-1, 128, 4641); o; (3, 128, 85); o; (-3, 256, 17); o; (1, 256, 1)]].
Definition J10 : list (list (Z * Z * Z)) := [
   [o; o; o; o; o; o; o; o; o; o; o; (-1, 256, 41990); o; (1, 128, 4845); o; (-1, 128, 969); o; (1, 256, 285); o; (-1, 256, 5); o];
   [o; (9, 256, 1); o; (-7, 256, 57); o; (1, 128, 4845); o; (-3, 128, 969); o; (1, 256, 8398); o; o; o; o; o; o; o; o; o; o; o];
   [o; o; o; o; o; o; o; o; o; o; o; (-1, 32, 221); o; (-1, 32, 102); o; (1, 32, 510); o; (-11, 64, 6); o; (1, 64, 38); o];
   [o; (-7, 256, 57); o; (161, 256, 1); o; (-7, 128, 85); o; (-11, 128, 17); o; (3, 256, 1326); o; o; o; o; o; o; o; o; o; o; o];
   [o; o; o; o; o; o; o; o; o; o; o; (-9, 256, 78); o; (-69, 128, 1); o; (1, 128, 5); o; (43, 256, 17); o; (-3, 256, 969); o];
   [o; (1, 128, 4845); o; (-7, 128, 85); o; (-31, 64, 1); o; (1, 64, 5); o; (3, 128, 390); o; o; o; o; o; o; o; o; o; o; o];
   [o; o; o; o; o; o; o; o; o; o; o; (-1, 32, 39); o; (-11, 32, 2); o; (-5, 32, 10); o; (-1, 64, 34); o; (1, 64, 1938); o];
   [o; (-3, 128, 969); o; (-11, 128, 17); o; (1, 64, 5); o; (21, 64, 1); o; (7, 128, 78); o; o; o; o; o; o; o; o; o; o; o];
   [o; o; o; o; o; o; o; o; o; o; o; (-7, 128, 3); o; (-7, 128, 26); o; (-5, 128, 130); o; (-7, 256, 442); o; (-1, 256, 25194); o];
   [o; (1, 256, 8398); o; (3, 256, 1326); o; (3, 128, 390); o; (7, 128, 78); o; (63, 128, 1); o; o; o; o; o; o; o; o; o; o; o];
   [o; o; o; o; o; o; o; o; o; o; (-63, 256, 1); o; (-7, 256, 165); o; (-1, 128, 2145); o; (-3, 512, 4290); o; (-1, 256, 12155); o; (-1, 512, 92378)];
   [(-1, 256, 41990); o; (-1, 32, 221); o; (-9, 256, 78); o; (-1, 32, 39); o; (-7, 128, 3); o; o; o; o; o; o; o; o; o; o; o; o];
   [o; o; o; o; o; o; o; o; o; o; (-7, 256, 165); o; (-119, 256, 1); o; (-13, 128, 13); o; (-19, 512, 26); o; (1, 256, 663); o; (1, 512, 125970)];
   [(1, 128, 4845); o; (-1, 32, 102); o; (-69, 128, 1); o; (-11, 32, 2); o; (-7, 128, 26); o; o; o; o; o; o; o; o; o; o; o; o];
   [o; o; o; o; o; o; o; o; o; o; (-1, 128, 2145); o; (-13, 128, 13); o; (1, 64, 1); o; (83, 256, 2); o; (11, 128, 51); o; (-1, 256, 9690)];
   [(-1, 128, 969); o; (1, 32, 510); o; (1, 128, 5); o; (-5, 32, 10); o; (-5, 128, 130); o; o; o; o; o; o; o; o; o; o; o; o];
   [o; o; o; o; o; o; o; o; o; o; (-3, 512, 4290); o; (-19, 512, 26); o; (83, 256, 2); o; (237, 512, 1); o; (-31, 512, 102); o; (1, 512, 4845)];
   [(1, 256, 285); o; (-11, 64, 6); o; (43, 256, 17); o; (-1, 64, 34); o; (-7, 256, 442); o; o; o; o; o; o; o; o; o; o; o; o];
   [o; o; o; o; o; o; o; o; o; o; (-1, 256, 12155); o; (1, 256, 663); o; (11, 128, 51); o; (-31, 512, 102); o; (59, 256, 1); o; (-1, 512, 190)];
   [(-1, 256, 5); o; (1, 64, 38); o; (-3, 256, 969); o; (1, 64, 1938); o; (-1, 256, 25194); o; o; o; o; o; o; o; o; o; o; o; o];
   [o; o; o; o; o; o; o; o; o; o; (-1, 512, 92378); o; (1, 512, 125970); o; (-1, 256, 9690); o; (1, 512, 4845); o; (-1, 512, 190); o; (1, 512, 1)]].
Definition J11 : list (list (Z * Z * Z)) := [
   [o; o; o; o; o; o; o; o; o; o; o; (1, 512, 88179); o; (-1, 512, 124355); o; (1, 256, 10659); o; (-3, 1024, 2926); o; (1, 512, 385); o; (-1, 1024, 22); o];
   [o; (5, 256, 1); o; (-1, 64, 70); o; (9, 256, 133); o; (-1, 64, 1938); o; (1, 256, 22610); o; o; o; o; o; o; o; o; o; o; o; o; o];
   [o; o; o; o; o; o; o; o; o; o; o; (1, 512, 46189); o; (-1, 512, 4845); o; (-3, 256, 2261); o; (61, 1024, 114); o; (-39, 512, 15); o; (9, 1024, 42); o];
   [o; (-1, 64, 70); o; (1, 2, 1); o; (-3, 64, 190); o; o; o; (1, 32, 323); o; o; o; o; o; o; o; o; o; o; o; o; o];
   [o; o; o; o; o; o; o; o; o; o; o; (1, 512, 36465); o; (17, 512, 17); o; (-3, 256, 1785); o; (-105, 1024, 10); o; (77, 512, 19); o; (-7, 1024, 1330); o];
   [o; (9, 256, 133); o; (-3, 64, 190); o; (-47, 256, 1); o; (1, 64, 714); o; (9, 256, 170); o; o; o; o; o; o; o; o; o; o; o; o; o];
   [o; o; o; o; o; o; o; o; o; o; o; (15, 512, 143); o; (41, 512, 15); o; (-13, 256, 7); o; (-53, 1024, 102); o; (-3, 512, 4845); o; (5, 1024, 13566); o];
   [o; (-1, 64, 1938); o; o; o; (1, 64, 714); o; (1, 2, 1); o; (1, 32, 105); o; o; o; o; o; o; o; o; o; o; o; o; o];
   [o; o; o; o; o; o; o; o; o; o; o; (1, 512, 30030); o; (57, 512, 14); o; (11, 256, 30); o; (-1, 512, 595); o; (-3, 512, 4522); o; (-9, 512, 1615); o];
   [o; (1, 256, 22610); o; (1, 32, 323); o; (9, 256, 170); o; (1, 32, 105); o; (21, 128, 1); o; o; o; o; o; o; o; o; o; o; o; o; o];
   [o; o; o; o; o; o; o; o; o; o; o; (21, 512, 66); o; (21, 512, 130); o; (5, 256, 546); o; (15, 512, 221); o; (1, 512, 41990); o; (1, 512, 29393); o];
   [(1, 512, 88179); o; (1, 512, 46189); o; (1, 512, 36465); o; (15, 512, 143); o; (1, 512, 30030); o; (21, 512, 66); o; o; o; o; o; o; o; o; o; o; o; o];
   [o; o; o; o; o; o; o; o; o; o; o; o; (-21, 512, 1); o; (-3, 512, 455); o; (-25, 1024, 78); o; (-7, 1024, 2210); o; (-3, 1024, 25194); o; (-1, 1024, 646646)];
   [(-1, 512, 124355); o; (-1, 512, 4845); o; (17, 512, 17); o; (41, 512, 15); o; (57, 512, 14); o; (21, 512, 130); o; o; o; o; o; o; o; o; o; o; o; o];
   [o; o; o; o; o; o; o; o; o; o; o; o; (-3, 512, 455); o; (-179, 512, 1); o; (-35, 1024, 210); o; (-33, 1024, 238); o; (-1, 1024, 67830); o; (3, 1024, 35530)];
   [(1, 256, 10659); o; (-3, 256, 2261); o; (-3, 256, 1785); o; (-13, 256, 7); o; (11, 256, 30); o; (5, 256, 546); o; o; o; o; o; o; o; o; o; o; o; o];
   [o; o; o; o; o; o; o; o; o; o; o; o; (-25, 1024, 78); o; (-35, 1024, 210); o; (-395, 1024, 1); o; (9, 1024, 255); o; (39, 1024, 323); o; (-1, 1024, 74613)];
   [(-3, 1024, 2926); o; (61, 1024, 114); o; (-105, 1024, 10); o; (-53, 1024, 102); o; (-1, 512, 595); o; (15, 512, 221); o; o; o; o; o; o; o; o; o; o; o; o];
   [o; o; o; o; o; o; o; o; o; o; o; o; (-7, 1024, 2210); o; (-33, 1024, 238); o; (9, 1024, 255); o; (643, 1024, 1); o; (-29, 1024, 285); o; (1, 1024, 7315)];
   [(1, 512, 385); o; (-39, 512, 15); o; (77, 512, 19); o; (-3, 512, 4845); o; (-3, 512, 4522); o; (1, 512, 41990); o; o; o; o; o; o; o; o; o; o; o; o];
   [o; o; o; o; o; o; o; o; o; o; o; o; (-3, 1024, 25194); o; (-1, 1024, 67830); o; (39, 1024, 323); o; (-29, 1024, 285); o; (151, 1024, 1); o; (-1, 1024, 231)];
   [(-1, 1024, 22); o; (9, 1024, 42); o; (-7, 1024, 1330); o; (5, 1024, 13566); o; (-9, 512, 1615); o; (1, 512, 29393); o; o; o; o; o; o; o; o; o; o; o; o];
   [o; o; o; o; o; o; o; o; o; o; o; o; (-1, 1024, 646646); o; (3, 1024, 35530); o; (-1, 1024, 74613); o; (1, 1024, 7315); o; (-1, 1024, 231); o; (1, 1024, 1)]].
(* J.py:2186 *)
Definition Jd_tables : list (list (list (Z * Z * Z))) := [J0; J1; J2; J3; J4; J5; J6; J7; J8; J9; J10; J11].
