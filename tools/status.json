{
 "C37": {
  "status": "proved",
  "note": "The rejection clause is false of the code: low_storage_length_check_refuted proves the chained comparison accepts mismatched gammas."
 },
 "C46": {
  "status": "proved",
  "note": "Also proved false of the code: exactness of the derivative layer in two or more dimensions when a roll is needed (roll_without_axis_refuted) and the accuracy guarantee for overdetermined requests (overdetermined_layer_refuted). SVD and solve are parameters with their defining equations as hypotheses."
 },
 "C54": {
  "status": "proved",
  "note": "Proved on the offsets named in the statement; van_leer_staggered_refuted proves that the agreement fails at the staggered offset (1, 1/2)."
 }
}