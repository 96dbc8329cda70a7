*.vo
*.vos
*.vok
*.glob
.*.aux
*.aux
Makefile
Makefile.conf
.Makefile.d
.lia.cache
.nia.cache
.nra.cache
