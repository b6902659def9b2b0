*.vo
*.vok
*.vos
*.glob
*.aux
.*.aux
.lia.cache
.nia.cache
.*.d
*.d
Makefile
Makefile.conf
