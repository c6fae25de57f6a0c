.nia.cache
.nra.cache
